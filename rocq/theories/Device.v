(** Model of the parts of the CUDA and OpenCL back ends that manage devices: constructors of
    device images (src/cuda/image_buffer_cuda.cuh, src/cuda/image_buffer_cuda_pinned.cuh,
    src/opencl/image_buffer_opencl.h), the classes Array (src/cuda/cuda_types.cuh,
    src/opencl/opencl_types.h), the streams and queues of a device and the device managers
    (src/cuda/cuda_device.cu, src/opencl/opencl_device.h/.cpp).  Definitions only.

    Conventions.
    - One host thread: the default device is a variable of each thread, the manager is not
      protected against use by several threads.
    - The driver creates and destroys streams, queues, contexts and memory without failure
      unless an argument of the model says otherwise. *)
From Coq Require Import ZArith List Bool.
From Verif Require Import Base Image Container.
Import ListNotations.
Open Scope Z_scope.

(** ** Device images *)

(** The type numbers: image_buffer_cuda.cuh:34, image_buffer_cuda_pinned.cuh:34,
    image_buffer_opencl.h:43. *)
Definition type_cuda : Z := 1.
Definition type_pinned : Z := 2.
Definition type_opencl : Z := 3.

(** The copy constructor of a device image, image_buffer_cuda.cuh:40-43 (pinned: 40-43,
    OpenCL: 49-52): the base is default-constructed, of type 0, then assigned.  When the
    assignment throws, the base is destroyed and the object never existed. *)
Definition device_copy_ctor (st : cstate) (a b : Z) : res cstate cstate :=
  with_img st b (fun src =>
    match (do st1 <- new_img st a 0; with_img st1 a (fun im => copy st1 a im b src)) with
    | Throw st1 =>
        match with_img st1 a (fun im => clear st1 a im) with
        | Ok st2 => Throw (set_img st2 a None)
        | r => r
        end
    | r => r
    end).

(** The move constructor, image_buffer_cuda.cuh:45-48 (pinned: 45-48, OpenCL: 54-57): the
    default-constructed base of type 0 is swapped with the source. *)
Definition device_move_ctor (st : cstate) (a b : Z) : res cstate cstate :=
  with_img st b (fun src =>
    do st1 <- new_img st a 0;
    with_img st1 a (fun im => Ok (swap st1 a b im src))).

(** The constructor with sizes, image_buffer_cuda.cuh:32-38 (pinned: 32-38, OpenCL: 41-47),
    sets the type of the empty base and goes on as the constructor of the base: [CNew] of
    Container.v with the type as its argument. *)

(** ** Arrays, cuda_types.cuh:168-329, opencl_types.h:157-299 *)

(** _data (the elements on the device, or NULL) and _size *)
Record darray := mkArr { adata : option (list Z); asize : nat }.
(** cuda_types.cuh:171-175, opencl_types.h:160, 240-241 *)
Definition arr_new : darray := mkArr None 0.

(** _allocate, cuda_types.cuh:275-285, opencl_types.h:251-261.  [mem n] is what the
    allocator gives for [n] elements: nothing when it throws. *)
Definition arr_allocate (mem : nat -> option (list Z)) (size : nat) (a : darray) : res darray darray :=
  if Nat.eqb (asize a) size then Ok a
  else
    if Nat.eqb size 0 then Ok (mkArr None 0)
    else match mem size with
         | Some l => Ok (mkArr (Some l) size)
         | None => Throw (mkArr None (asize a))
         end.
(** _copyFrom, cuda_types.cuh:307-314, opencl_types.h:274-283 *)
Definition arr_copyFrom (v : list Z) (a : darray) : darray :=
  match adata a with
  | Some _ => if Nat.eqb (asize a) (length v) then mkArr (Some v) (asize a) else a
  | None => a
  end.
(** operator=( const std::vector & ), cuda_types.cuh:225-231, opencl_types.h:200-206 *)
Definition arr_assign (mem : nat -> option (list Z)) (v : list Z) (a : darray) : res darray darray :=
  do a <- arr_allocate mem (length v) a;
  Ok (arr_copyFrom v a).
(** resize, cuda_types.cuh:259-262, opencl_types.h:234-237 *)
Definition arr_resize := arr_allocate.
(** get, cuda_types.cuh:244-247 with 316-327, opencl_types.h:219-222 with 285-298 *)
Definition arr_get (a : darray) : list Z :=
  match adata a with Some l => l | None => repeat 0 (asize a) end.
(** operator=( const Array & ), _copy of cuda_types.cuh:287-299 *)
Definition arr_copy (mem : nat -> option (list Z)) (src a : darray) : res darray darray :=
  do a <- arr_allocate mem (asize src) a;
  match adata src, adata a with
  | Some l, Some _ => Ok (mkArr (Some l) (asize a))
  | Some _, None => Throw a  (* cudaMemcpy to NULL *)
  | None, _ => Throw a
  end.
(** The OpenCL form, opencl_types.h:263-266, always throws; it is not modelled. *)

(** What a program does with one array.  [AAssign mem v] and so on: the oracle of the
    allocator is part of the operation; exceptions are caught. *)
Inductive aop :=
| AAssign (mem : nat -> option (list Z)) (v : list Z)
| AResize (mem : nat -> option (list Z)) (n : nat)
| ACopy (mem : nat -> option (list Z)) (src : darray).
Definition aresult (r : res darray darray) (a : darray) : darray :=
  match r with Ok b | Throw b => b | _ => a end.
Definition astep (a : darray) (o : aop) : darray :=
  match o with
  | AAssign mem v => aresult (arr_assign mem v a) a
  | AResize mem n => aresult (arr_resize mem n a) a
  | ACopy mem src => aresult (arr_copy mem src a) a
  end.

(** ** Streams and queues of a device *)

(** A stream or queue: a serial number and the device it was created on. *)
Record handle := mkH { hserial : Z; hdevice : Z }.
Record queues := mkQ {
  qlist : list handle;     (** _stream, _queue *)
  qcurrent : nat;          (** _currentStreamId, _currentQueueId *)
  qnext : Z;               (** next serial number *)
  qreleased : list handle  (** destroyed, latest first *)
}.

(** [n] new handles *)
Fixpoint create (n : nat) (dev next : Z) : list handle :=
  match n with O => [] | S k => mkH next dev :: create k dev (next + 1) end.
Definition add_queues (n : nat) (dev : Z) (q : queues) : queues :=
  mkQ (qlist q ++ create n dev (qnext q)) (qcurrent q) (qnext q + Z.of_nat n) (qreleased q).
Definition drop_queues (n : nat) (q : queues) : queues :=
  mkQ (firstn n (qlist q)) (if Nat.leb n (qcurrent q) then 0%nat else qcurrent q) (qnext q)
      (rev (skipn n (qlist q)) ++ qreleased q).

(** CudaDevice::setStreamCount, cuda_device.cu:241-258.  A stream is made on the device that
    is current for the CUDA runtime ([runtime]), CudaStream::CudaStream, cuda_device.cu:391-395. *)
Definition setStreamCount (runtime : Z) (n : nat) (q : queues) : queues :=
  if Nat.eqb n (length (qlist q)) then q
  else if Nat.ltb (length (qlist q)) n then add_queues (n - length (qlist q)) runtime q
  else drop_queues n q.
(** OpenCLDevice::setQueueCount, opencl_device.cpp:298-323; a queue is made in the context of
    its own device.  static_cast<uint8_t>( queueCount ) keeps the value. *)
Definition setQueueCount (dev : Z) (n : nat) (q : queues) : queues :=
  let n := if Nat.ltb 255 n then 255%nat else n in
  if Nat.eqb n (length (qlist q)) then q
  else if Nat.ltb (length (qlist q)) n then add_queues (n - length (qlist q)) dev q
  else drop_queues n q.
(** setCurrentStreamId, cuda_device.cu:210-214; setCurrentQueueId, opencl_device.h:234-239 *)
Definition setCurrentId (i : nat) (q : queues) : queues :=
  if negb (Nat.eqb (qcurrent q) i) && Nat.ltb i (length (qlist q)) then mkQ (qlist q) i (qnext q) (qreleased q) else q.
(** stream(), cuda_device.cu:216-219; queue(), opencl_device.h:242-245 *)
Definition current {E} (q : queues) : res E handle :=
  match nth_error (qlist q) (qcurrent q) with Some h => Ok h | None => UB end.
(** getCudaStream, cuda_helper.cu:238-246: None is the default stream *)
Definition getCudaStream {E} (q : queues) : res E (option handle) :=
  if Nat.ltb 0 (length (qlist q)) then do h <- current q; Ok (Some h) else Ok None.
(** A new device: cuda_device.cu:90-91 (no streams), opencl_device.cpp:226-234 (one queue). *)
Definition streams_new : queues := mkQ [] 0 0 [].
Definition queues_new (dev : Z) : queues := setQueueCount dev 1 streams_new.
(** The destructor, cuda_device.cu:123-130, opencl_device.cpp:236-243. *)
Definition release_all (q : queues) : queues :=
  mkQ [] (qcurrent q) (qnext q) (rev (qlist q) ++ qreleased q).

Inductive qop := QCount (n : nat) | QCurrent (i : nat).
(** CUDA: each operation comes with the current device of the runtime *)
Definition sstep (q : queues) (o : Z * qop) : queues :=
  match snd o with QCount n => setStreamCount (fst o) n q | QCurrent i => setCurrentId i q end.
Definition qstep (dev : Z) (q : queues) (o : qop) : queues :=
  match o with QCount n => setQueueCount dev n q | QCurrent i => setCurrentId i q end.

(** ** CudaDeviceManager *)

(** 0, 1, ..., n - 1, and a loop over them *)
Definition ids (n : Z) : list Z := map Z.of_nat (seq 0 (Z.to_nat n)).
Fixpoint each {S} (f : S -> Z -> res S S) (l : list Z) (s : S) : res S S :=
  match l with [] => Ok s | x :: r => do s <- f s x; each f r s end.

Record cuda_mgr := mkCm {
  cmSupported : Z;       (** _supportedDeviceCount *)
  cmDevices : list Z;    (** _device: the device ids in order *)
  cmDefault : Z;         (** defaultDeviceId, cuda_device.cu:35 *)
  cmRuntime : Z          (** the current device of the CUDA runtime *)
}.
(** cuda_device.cu:277-283: nothing is open; device 0 is the default of both *)
Definition cm_new (count : Z) : cuda_mgr := mkCm count [] 0 0.

(** std::find_if over _device *)
Definition is_open (id : Z) (l : list Z) : bool := existsb (Z.eqb id) l.

(** CudaDevice::setActive, cuda_device.cu:270-274 *)
Definition cm_set_active (m : cuda_mgr) (id : Z) : cuda_mgr := mkCm (cmSupported m) (cmDevices m) id id.
(** initializeDevice, cuda_device.cu:303-312.  The constructor of the device, 90-112, makes it
    current and DeviceAutoRestorer (49-71) goes back to the default device. *)
Definition cm_initialize (m : cuda_mgr) (id : Z) : res cuda_mgr cuda_mgr :=
  if (id <? 0) || (cmSupported m <=? id) then Throw m
  else if is_open id (cmDevices m) then Ok m
  else Ok (mkCm (cmSupported m) (cmDevices m ++ [id]) (cmDefault m)
             (if id =? cmDefault m then cmRuntime m else cmDefault m)).
(** initializeDevices, cuda_device.cu:297-301 *)
Definition cm_initialize_all (m : cuda_mgr) : res cuda_mgr cuda_mgr :=
  each cm_initialize (ids (cmSupported m)) m.
(** std::list::erase of the first device with this id *)
Fixpoint remove_first (id : Z) (l : list Z) : list Z :=
  match l with [] => [] | x :: r => if id =? x then r else x :: remove_first id r end.
(** closeDevice, cuda_device.cu:314-325; the destructor of the device, 123-130, makes it the
    active device *)
Definition cm_close (m : cuda_mgr) (id : Z) : res cuda_mgr cuda_mgr :=
  if (id <? 0) || (cmSupported m <=? id) then Throw m
  else if is_open id (cmDevices m) then
    let m := cm_set_active m id in
    Ok (mkCm (cmSupported m) (remove_first id (cmDevices m)) (cmDefault m) (cmRuntime m))
  else Ok m.
(** closeDevices, cuda_device.cu:327-333 *)
Definition cm_close_all (m : cuda_mgr) : cuda_mgr :=
  let m := fold_left cm_set_active (cmDevices m) m in
  mkCm (cmSupported m) [] (cmDefault m) (cmRuntime m).
(** setActiveDevice, cuda_device.cu:381-389 *)
Definition cm_set_active_device (m : cuda_mgr) (id : Z) : res cuda_mgr cuda_mgr :=
  if is_open id (cmDevices m) then Ok (cm_set_active m id) else Throw m.
(** device( id ), cuda_device.cu:355-366; the answer is the id of the device returned *)
Definition cm_device (m : cuda_mgr) (id : Z) : res cuda_mgr Z :=
  match cmDevices m with
  | [] => Throw m
  | _ => match find (Z.eqb id) (cmDevices m) with Some d => Ok d | None => Throw m end
  end.
(** device(), cuda_device.cu:345-348 *)
Definition cm_current (m : cuda_mgr) : res cuda_mgr Z := cm_device m (cmDefault m).

Inductive mop := MInit (id : Z) | MInitAll | MClose (id : Z) | MCloseAll | MActive (id : Z).
(** Exceptions are caught. *)
Definition keep {S} (r : res S S) (s : S) : S := match r with Ok t | Throw t => t | _ => s end.
Definition cm_step (m : cuda_mgr) (o : mop) : cuda_mgr :=
  match o with
  | MInit id => keep (cm_initialize m id) m
  | MInitAll => keep (cm_initialize_all m) m
  | MClose id => keep (cm_close m id) m
  | MCloseAll => cm_close_all m
  | MActive id => keep (cm_set_active_device m id) m
  end.

(** ** OpenCLDeviceManager *)

Record cl_mgr := mkClm {
  clSupported : list Z;  (** _supportedDeviceId: identifiers of the OpenCL library *)
  clDevices : list Z;    (** _device: the identifiers of the devices in order *)
  clDefault : Z          (** defaultDeviceId, an index into _supportedDeviceId *)
}.

(** _supportedDeviceId[i], without a check *)
Definition supported {E} (m : cl_mgr) (i : Z) : res E Z :=
  if (0 <=? i) && (i <? Z.of_nat (length (clSupported m))) then Ok (nth (Z.to_nat i) (clSupported m) 0) else UB.

(** initializeDevice, opencl_device.cpp:338-350 *)
Definition clm_initialize (m : cl_mgr) (i : Z) : res cl_mgr cl_mgr :=
  guard (i <? Z.of_nat (length (clSupported m))) with m;
  do id <- supported m i;
  if is_open id (clDevices m) then Ok m else Ok (mkClm (clSupported m) (clDevices m ++ [id]) (clDefault m)).
(** initializeDevices, opencl_device.cpp:331-336 *)
Definition clm_initialize_all (m : cl_mgr) : res cl_mgr cl_mgr :=
  each clm_initialize (ids (Z.of_nat (length (clSupported m)))) m.
(** closeDevice, opencl_device.cpp:352-365 *)
Definition clm_close (m : cl_mgr) (i : Z) : res cl_mgr cl_mgr :=
  guard (i <? Z.of_nat (length (clSupported m))) with m;
  do id <- supported m i;
  Ok (mkClm (clSupported m) (remove_first id (clDevices m)) (clDefault m)).
(** closeDevices, opencl_device.cpp:367-374 *)
Definition clm_close_all (m : cl_mgr) : cl_mgr := mkClm (clSupported m) [] (clDefault m).
(** setActiveDevice, opencl_device.cpp:418-428: the index is read when there is a device to
    compare with *)
Definition clm_set_active (m : cl_mgr) (i : Z) : res cl_mgr cl_mgr :=
  match clDevices m with
  | [] => Throw m
  | _ => do id <- supported m i;
         if is_open id (clDevices m) then Ok (mkClm (clSupported m) (clDevices m) i) else Throw m
  end.
(** device( i ), opencl_device.cpp:386-400 *)
Definition clm_device (m : cl_mgr) (i : Z) : res cl_mgr Z :=
  match clDevices m with
  | [] => Throw m
  | _ => do id <- supported m i;
         match find (Z.eqb id) (clDevices m) with Some d => Ok d | None => Throw m end
  end.
(** device(), opencl_device.cpp:376-379 *)
Definition clm_current (m : cl_mgr) : res cl_mgr Z := clm_device m (clDefault m).

(** resetSupportedDevice, opencl_device.cpp:430-476.  What the library answers for a
    platform: None when the number of devices cannot be had (there is none of the wanted
    type), otherwise the devices and whether the second call, for their identifiers,
    succeeds.  [usable id]: a context can be made for the device. *)
Record platform := mkPlat { pDevices : option (list Z); pSecond : bool }.

(** The loop, opencl_device.cpp:461-471: the number of devices counted *)
Fixpoint usable_loop (fuel : nat) (usable : Z -> bool) (ids : list Z) (i n : nat) : nat :=
  match fuel with
  | O => n
  | S f => if Nat.ltb i n then
             if usable (nth i ids 0) then usable_loop f usable ids (S i) n
             else usable_loop f usable ids i (n - 1)
           else n
  end.
(** One platform, opencl_device.cpp:449-474.  The state is _supportedDeviceId and
    supportedDeviceCount.  resize keeps the first elements and fills up with NULL. *)
Definition resize_vec (n : nat) (l : list Z) : list Z := firstn n l ++ repeat 0 (n - length l).
Definition reset_platform (usable : Z -> bool) (s : list Z * nat) (p : platform) : list Z * nat :=
  match pDevices p with
  | None => s
  | Some ids =>
      let l := resize_vec (snd s + length ids) (fst s) in
      if pSecond p then
        let l := firstn (snd s) l ++ ids in
        (l, (snd s + usable_loop (length ids) usable ids 0 (length ids))%nat)
      else (resize_vec (snd s) l, snd s)
  end.
Definition clm_reset (usable : Z -> bool) (ps : list platform) (m : cl_mgr) : cl_mgr :=
  let m := clm_close_all m in
  mkClm (fst (fold_left (reset_platform usable) ps ([], 0%nat))) (clDevices m) (clDefault m).

Definition clm_step (m : cl_mgr) (o : mop) : res cl_mgr cl_mgr :=
  match o with
  | MInit i => clm_initialize m i
  | MInitAll => clm_initialize_all m
  | MClose i => clm_close m i
  | MCloseAll => Ok (clm_close_all m)
  | MActive i => clm_set_active m i
  end.

(** ** Cached programs *)

(** GetProgram, image_function_opencl.cpp:374-389, and getMemsetKernel,
    opencl_device.cpp:74-95, keep the program of a device in a static map under the identifier
    of the device.  Each time a device is opened it gets a new context
    (opencl_device.cpp:226-234 with 131-136); the program stays in the context in which it was
    built. *)
Record contexts := mkCx {
  cxOpen : Z -> option Z;   (** context of an open device *)
  cxNext : Z;               (** next context *)
  cxCache : Z -> option Z   (** context of the program kept for a device *)
}.
Definition cx_new : contexts := mkCx (fun _ => None) 0 (fun _ => None).
Definition upd (f : Z -> option Z) (k : Z) (v : option Z) : Z -> option Z := fun x => if x =? k then v else f x.
Inductive xop := XOpen (id : Z) | XClose (id : Z) | XRun (id : Z).
(** A function of the back end on the active device [id]: a kernel of the program kept for the
    device, with buffers and a queue of the context of the device.  clEnqueueNDRangeKernel
    gives CL_INVALID_CONTEXT when the contexts of queue and kernel differ, openCLCheck throws
    (opencl_helper.cpp:76-84, 139-144). *)
Definition cx_run (s : contexts) (id : Z) : res contexts contexts :=
  match cxOpen s id with
  | None => Throw s
  | Some c =>
      match cxCache s id with
      | None => Ok (mkCx (cxOpen s) (cxNext s) (upd (cxCache s) id (Some c)))
      | Some c' => if c =? c' then Ok s else Throw s
      end
  end.
Definition cx_step (s : contexts) (o : xop) : contexts :=
  match o with
  | XOpen id => match cxOpen s id with Some _ => s | None => mkCx (upd (cxOpen s) id (Some (cxNext s))) (cxNext s + 1) (cxCache s) end
  | XClose id => mkCx (upd (cxOpen s) id None) (cxNext s) (cxCache s)
  | XRun id => keep (cx_run s id) s
  end.
