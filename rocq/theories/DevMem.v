(** Model of the memory allocators of the devices: src/cuda/cuda_memory.cuh,
    src/opencl/opencl_memory.h (the base class of both, src/memory/memory_allocator.h, is in
    Alloc.v), the choice of the allocator by MemoryManager (src/cuda/cuda_device.cu:78-86,
    src/opencl/opencl_device.cpp:101-109) and its use by device images and arrays
    (image_buffer_cuda.cuh:66-74, image_buffer_opencl.h, cuda_types.cuh, opencl_types.h): both
    allocate and free take the allocator of the device that is active at that moment.
    Definitions only.

    Conventions.
    - One host thread.  What the driver answers is part of an operation: the address or handle
      of new memory, or nothing when it refuses.
    - The addresses of all devices and of the host are distinct (unified addressing).
    - Every call leaves the devices open; closing a device is in Device.v.
    - A program catches the exceptions. *)
From Coq Require Import ZArith List Bool.
From Verif Require Import Base Alloc.
Import ListNotations.
Open Scope Z_scope.

(** A chunk of level [lv] from the free lists and what is left of them, after the chunks have
    been split: memory_allocator.h:96-125 and *_freeChunk[level].begin() *)
Definition take_chunk {E} (lv : nat) (fc : list (list Z)) : res E (option (Z * list (list Z) * list (list Z))) :=
  do r <- split lv fc;
  match r with
  | None => Ok None
  | Some fc' => match level fc' lv with
                | [] => UB
                | o :: rest => Ok (Some (o, fc', setl fc' lv rest))
                end
  end.
(** insert and _merge: cuda_memory.cuh:84-85, opencl_memory.h:109-110 *)
Definition give_chunk {E} (o : Z) (lv : nat) (fc : list (list Z)) : res E (list (list Z)) :=
  if Nat.ltb lv (length fc) then
    let fc := setl fc lv (sinsert o (level fc lv)) in merge (length fc - lv) lv o fc
  else UB.

(** ** CUDA *)

Record carena := mkCa {
  caData : option Z;           (** _data *)
  caSize : Z;                  (** _size *)
  caFc : list (list Z);        (** _freeChunk *)
  caAl : list (Z * nat);       (** _allocatedChunk *)
  caAvail : Z                  (** _availableSize *)
}.
(** What a program has: the allocators of the devices, the active device, the blocks of
    cudaMalloc that have not been freed, and what the program holds: address, bytes, and the
    device that was active when it was allocated. *)
Record held := mkHeld { hAddr : Z; hBytes : Z; hDev : Z }.
Record gpu := mkGpu {
  gDev : Z -> carena;
  gActive : Z;
  gBlocks : list (Z * Z);
  gHeld : list held
}.
Definition set_dev (st : gpu) (dev : Z) (c : carena) : gpu :=
  mkGpu (fun k => if k =? dev then c else gDev st k) (gActive st) (gBlocks st) (gHeld st).
Definition set_blocks (st : gpu) (b : list (Z * Z)) : gpu := mkGpu (gDev st) (gActive st) b (gHeld st).

(** cudaFree: the start of a block, or NULL; anything else is refused *)
Definition cudaFree (st : gpu) (a : Z) : res gpu gpu :=
  if a =? 0 then Ok st
  else if existsb (fun b => fst b =? a) (gBlocks st) then Ok (set_blocks st (filter (fun b => negb (fst b =? a)) (gBlocks st)))
  else Throw st.
(** cudaMalloc, with the answer of the driver *)
Definition cudaMalloc (st : gpu) (bytes : Z) (ans : option Z) : res gpu (gpu * Z) :=
  match ans with
  | None => Throw st
  | Some h => Ok (set_blocks st ((h, bytes) :: gBlocks st), h)
  end.

(** _free, memory_allocator.h:73-79 with cuda_memory.cuh:130-140 *)
Definition cu_free_arena (st : gpu) (dev : Z) : res gpu gpu :=
  let c := gDev st dev in
  do st <- (match caData c with None => Ok st | Some d => cudaFree st d end);
  Ok (set_dev st dev (mkCa None 0 [] [] (caAvail c))).

(** reserve, memory_allocator.h:38-70 with cuda_memory.cuh:110-127 *)
Definition cu_reserve (st : gpu) (dev size : Z) (ans : option Z) : res gpu gpu :=
  let c := gDev st dev in
  guard negb (size =? 0) with st;
  if size =? caSize c then Ok st else
  guard (size <=? caAvail c) with st;
  guard (match caAl c with [] => true | _ => false end) with st;
  do st <- cu_free_arena st dev;
  do (st, d) <- cudaMalloc st size ans;
  do fc <- fill 64 0 size [];
  Ok (set_dev st dev (mkCa (Some d) size fc [] (caAvail c))).

(** allocate<T>( n ), cuda_memory.cuh:48-71 *)
Definition cu_allocate (st : gpu) (n sz : Z) (ans : option Z) : res gpu (gpu * Z) :=
  let dev := gActive st in
  let c := gDev st dev in
  let size := u64 (n * sz) in
  match caData c with
  | Some d =>
      if size <? caSize c then
        do lv <- getAllocationLevel size;
        do r <- take_chunk lv (caFc c);
        match r with
        | Some (o, _, fc) =>
            Ok (set_dev st dev (mkCa (Some d) (caSize c) fc
                  (if existsb (fun x => fst x =? o) (caAl c) then caAl c else (o, lv) :: caAl c) (caAvail c)), d + o)
        | None => cudaMalloc st size ans
        end
      else cudaMalloc st size ans
  | None => cudaMalloc st size ans
  end.

(** free, cuda_memory.cuh:77-94 *)
Definition cu_free (st : gpu) (a : Z) : res gpu gpu :=
  let dev := gActive st in
  let c := gDev st dev in
  match caData c with
  | Some d =>
      if d <=? a then
        match find (fun x => fst x =? a - d) (caAl c) with
        | Some (o, lv) =>
            do fc <- give_chunk o lv (caFc c);
            Ok (set_dev st dev (mkCa (Some d) (caSize c) fc (filter (fun x => negb (fst x =? o)) (caAl c)) (caAvail c)))
        | None => cudaFree st a
        end
      else cudaFree st a
  | None => cudaFree st a
  end.

Inductive gop :=
| GReserve (dev size : Z) (ans : option Z)
| GAlloc (n sz : Z) (ans : option Z)
| GFree (a : Z)
| GActive (dev : Z).
Definition set_held (st : gpu) (l : list held) : gpu := mkGpu (gDev st) (gActive st) (gBlocks st) l.
Definition gstep (st : gpu) (o : gop) : res gpu gpu :=
  match o with
  | GReserve dev size ans => cu_reserve st dev size ans
  | GAlloc n sz ans =>
      do (st', a) <- cu_allocate st n sz ans;
      Ok (set_held st' (mkHeld a (n * sz) (gActive st) :: gHeld st'))
  | GFree a =>
      do st' <- cu_free st a;
      Ok (set_held st' (filter (fun x => negb (hAddr x =? a)) (gHeld st')))
  | GActive dev => Ok (mkGpu (gDev st) dev (gBlocks st) (gHeld st))
  end.
(** Exceptions are caught. *)
Fixpoint grun (st : gpu) (ops : list gop) : res gpu gpu :=
  match ops with
  | [] => Ok st
  | o :: t => match gstep st o with Ok st' | Throw st' => grun st' t | r => r end
  end.
(** Every device without reserved memory; [avail dev] bytes are available on it. *)
Definition gpu_new (avail : Z -> Z) : gpu := mkGpu (fun dev => mkCa None 0 [] [] (avail dev)) 0 [] [].

(** ** OpenCL *)

Record oarena := mkOa {
  oaData : bool;                     (** _data is not NULL *)
  oaSize : Z;                        (** _size *)
  oaFc : list (list Z);              (** _freeChunk *)
  oaMap : list (Z * (Z * nat));      (** _allocatedChunk: handle to offset and level *)
  oaAvail : Z;                       (** _availableSize *)
  oaMin : Z                          (** _minimumSizeChunk, CL_DEVICE_MEM_BASE_ADDR_ALIGN in bits *)
}.
(** A memory object the program holds: the device that was active when it was allocated, the
    offset when it is a sub-buffer of the memory reserved on it, its bytes *)
Record mobj := mkObj { mDev : Z; mSub : option Z; mBytes : Z }.
Record ocl := mkOcl {
  oDev : Z -> oarena;
  oActive : Z;
  oHeld : list (Z * mobj)
}.
Definition oset_dev (st : ocl) (dev : Z) (c : oarena) : ocl :=
  mkOcl (fun k => if k =? dev then c else oDev st k) (oActive st) (oHeld st).
Definition oset_held (st : ocl) (l : list (Z * mobj)) : ocl := mkOcl (oDev st) (oActive st) l.

(** reserve, memory_allocator.h:38-70 with opencl_memory.h:142-178; [ok]: clCreateBuffer
    succeeds.  clReleaseMemObject of the old memory does; sub-buffers keep it alive. *)
Definition cl_reserve (st : ocl) (dev size : Z) (ok : bool) : res ocl ocl :=
  let c := oDev st dev in
  guard negb (size =? 0) with st;
  if size =? oaSize c then Ok st else
  guard (size <=? oaAvail c) with st;
  guard (match oaMap c with [] => true | _ => false end) with st;
  let st := oset_dev st dev (mkOa false 0 [] [] (oaAvail c) (oaMin c)) in
  guard ok with st;
  do fc <- fill 64 0 size [];
  Ok (oset_dev st dev (mkOa true size fc [] (oaAvail c) (oaMin c))).

(** clCreateSubBuffer: an offset that is not a multiple of the alignment of the device is
    refused (CL_MISALIGNED_SUB_BUFFER_OFFSET); the alignment is given in bits *)
Definition sub_aligned (c : oarena) (o : Z) : bool := (o * 8) mod oaMin c =? 0.

(** allocate<T>( n ), opencl_memory.h:64-97; [ans] is the handle of the sub-buffer or of the
    buffer, or None when the library refuses.  emplace keeps an entry that is there. *)
Definition cl_allocate (st : ocl) (n sz : Z) (ans : option Z) : res ocl (ocl * Z) :=
  let dev := oActive st in
  let c := oDev st dev in
  let size := u64 (n * sz) in
  let buffer :=
    match ans with
    | None => Throw st
    | Some h => Ok (oset_held st ((h, mkObj dev None (n * sz)) :: oHeld st), h)
    end in
  if oaData c && (size <? oaSize c) then
    do lv <- getAllocationLevel (if size <? oaMin c then oaMin c else size);
    do r <- take_chunk lv (oaFc c);
    match r with
    | Some (o, split_fc, fc) =>
        match (if sub_aligned c o then ans else None) with
        | None => Throw (oset_dev st dev (mkOa true (oaSize c) split_fc (oaMap c) (oaAvail c) (oaMin c)))
        | Some h =>
            let m := if existsb (fun x => fst x =? h) (oaMap c) then oaMap c else (h, (o, lv)) :: oaMap c in
            let st := oset_dev st dev (mkOa true (oaSize c) fc m (oaAvail c) (oaMin c)) in
            Ok (oset_held st ((h, mkObj dev (Some o) (n * sz)) :: oHeld st), h)
        end
    | None => buffer
    end
  else buffer.

(** free, opencl_memory.h:103-118; clReleaseMemObject of a handle that is not held is
    refused *)
Definition cl_free (st : ocl) (h : Z) : res ocl ocl :=
  let dev := oActive st in
  let c := oDev st dev in
  do c' <-
    (match (if oaData c then find (fun x => fst x =? h) (oaMap c) else None) with
     | Some (_, (o, lv)) =>
         do fc <- give_chunk o lv (oaFc c);
         Ok (mkOa (oaData c) (oaSize c) fc (filter (fun x => negb (fst x =? h)) (oaMap c)) (oaAvail c) (oaMin c))
     | None => Ok c
     end);
  let st := oset_dev st dev c' in
  if existsb (fun x => fst x =? h) (oHeld st)
  then Ok (oset_held st (filter (fun x => negb (fst x =? h)) (oHeld st)))
  else Throw st.

Inductive oop :=
| OReserve (dev size : Z) (ok : bool)
| OAlloc (n sz : Z) (ans : option Z)
| OFree (h : Z)
| OActive (dev : Z).
Definition ostep (st : ocl) (o : oop) : res ocl ocl :=
  match o with
  | OReserve dev size ok => cl_reserve st dev size ok
  | OAlloc n sz ans => do (st', _) <- cl_allocate st n sz ans; Ok st'
  | OFree h => cl_free st h
  | OActive dev => Ok (mkOcl (oDev st) dev (oHeld st))
  end.
Fixpoint orun (st : ocl) (ops : list oop) : res ocl ocl :=
  match ops with
  | [] => Ok st
  | o :: t => match ostep st o with Ok st' | Throw st' => orun st' t | r => r end
  end.
(** [avail dev] bytes are available on a device, [align dev] is its alignment in bits *)
Definition ocl_new (avail align : Z -> Z) : ocl := mkOcl (fun dev => mkOa false 0 [] [] (avail dev) (align dev)) 0 [].
