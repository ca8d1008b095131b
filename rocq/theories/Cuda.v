(** Model of the CUDA back end: src/cuda/cuda_helper.cu, src/cuda/cuda_device.cu (the limits
    of a device), src/cuda/image_function_cuda.cu.  Definitions only.

    Conventions.
    - A device thread is a program [prog]: loads, stores and atomic updates of single memory
      elements, one per step.  The operands of one C++ expression are loaded once each, even
      when the expression names them twice; no other thread writes them.
    - The threads of a grid run in any interleaving, given by a schedule (a list of thread
      numbers).  CUDA guarantees a subset of these interleavings.
    - A launch is accepted by the driver when the grid is within the limits of the device and
      no dimension is zero; otherwise validateKernel throws.  Other failures of the driver
      (lost device, failed copy) are not modelled.
    - Host memory and device memory are blocks of the same [mem]; a call with an image of the
      wrong kind is not modelled.
    - A device array (multiCuda::Array, multiCuda::Type) lives in a block chosen by an oracle;
      the oracle may also answer that there is no memory left. *)
From Coq Require Import ZArith List Bool.
From Verif Require Import Base Image ImgFun.
Import ListNotations.
Open Scope Z_scope.

(** ** Device limits *)

(** dim3 *)
Record dim3 := mkDim3 { dx : Z; dy : Z; dz : Z }.

(** cuda_device.cu:155-198: the properties of CudaDevice used below.  [dThreads] is
    _deviceProperty.maxThreadsPerBlock read as uint32_t (160-163), [dMax] the same field of
    _backupDeviceProperty (165-168), [dBlock] blockDimension() (170-175), [dGrid]
    dimensionSize() (177-182); [dStreams] is true when streamCount() > 0, so that kernels run
    in a stream made with cudaStreamNonBlocking (391-395). *)
Record device := mkDevice { dThreads : Z; dMax : Z; dBlock : dim3; dGrid : dim3; dStreams : bool }.

(** static_cast<int>(uint32_t), two's complement *)
Definition to_int32 (z : Z) : Z := if z <? 2147483648 then z else z - W32.

(** cuda_device.cu:189-198, setThreadsPerBlock; the comparison is on int *)
Definition setThreadsPerBlock (d : device) (count : Z) : res device device :=
  guard negb ((count =? 0) || negb (count mod 32 =? 0)) with d;
  let threads := to_int32 count in
  Ok (if threads <=? to_int32 (dMax d)
      then mkDevice (u32 threads) (dMax d) (dBlock d) (dGrid d) (dStreams d)
      else d).

(** ** Grid parameters, cuda_helper.cu *)

(** cuda_helper.cu:30-35 and 42-47: the loop that looks for the side of a square or cube of
    threads; the state is (threadCount, overallThreadCount), all uint32_t *)
Definition side_loop {E} (fuel : nat) (shift total : Z) (s : Z * Z) : res E (Z * Z) :=
  loop fuel (fun s => snd s <=? total)
    (fun s => Ok (u32 (Z.shiftl (fst s) 1), u32 (Z.shiftl (snd s) shift))) s.

(** cuda_helper.cu:28-38 *)
Definition get2DThreadsPerBlock {E} (fuel : nat) (total : Z) : res E dim3 :=
  do (c, _) <- side_loop fuel 2 total (1, 4);
  if c =? 0 then UB else Ok (mkDim3 (total / c) c 1).

(** cuda_helper.cu:40-53 *)
Definition get3DThreadsPerBlock {E} (fuel : nat) (total : Z) : res E dim3 :=
  do (c, _) <- side_loop fuel 3 total (1, 8);
  if c =? 0 then UB else
  do t <- get2DThreadsPerBlock fuel (total / c);
  Ok (mkDim3 (dx t) (dy t) c).

(** cuda_helper.cu:55-67; a zero divisor is undefined *)
Definition adjust2DThreadsPerBlock {E} (total : Z) (lim t : dim3) : res E dim3 :=
  do t <- (if dy lim <? dy t
           then if dy lim =? 0 then UB else Ok (mkDim3 (total / dy lim) (dy lim) (dz t))
           else Ok t);
  if dx lim <? dx t
  then if dx lim =? 0 then UB
       else Ok (mkDim3 (dx lim) (if total / dx lim <=? dy lim then total / dx lim else dy t) (dz t))
  else Ok t.

(** cuda_helper.cu:69-77 *)
Definition adjust3DThreadsPerBlock {E} (total : Z) (lim t : dim3) : res E dim3 :=
  do t <- (if dz lim <? dz t
           then if u32 (dx t * dz lim) =? 0 then UB
                else Ok (mkDim3 (dx t) (total / u32 (dx t * dz lim)) (dz lim))
           else Ok t);
  adjust2DThreadsPerBlock total lim t.

(** cuda_helper.cuh: GridParameters *)
Record grid := mkGrid { gBlocks : dim3; gThreads : dim3 }.

(** Iterations after which the search for the side has not ended: it never will. *)
Definition side_fuel : nat := 64.

(** (size + threads - 1) / threads on uint32_t *)
Definition blocks {E} (size threads : Z) : res E Z :=
  if threads =? 0 then UB else Ok (u32 (size + threads - 1) / threads).

(** cuda_helper.cu:158-171 *)
Definition gridParameters1 {E} (e : E) (d : device) (sizeX : Z) : res E grid :=
  let tx := if dThreads d <=? dx (dBlock d) then dThreads d else dx (dBlock d) in
  guard negb (u32 (tx * dx (dGrid d)) <? sizeX) with e;
  do bx <- blocks sizeX tx;
  Ok (mkGrid (mkDim3 bx 1 1) (mkDim3 tx 1 1)).

(** cuda_helper.cu:173-190 *)
Definition gridParameters2 {E} (e : E) (d : device) (sizeX sizeY : Z) : res E grid :=
  do t <- get2DThreadsPerBlock side_fuel (dThreads d);
  do t <- adjust2DThreadsPerBlock (dThreads d) (dBlock d) t;
  guard negb ((u32 (dx t * dx (dGrid d)) <? sizeX) || (u32 (dy t * dy (dGrid d)) <? sizeY)) with e;
  do bx <- blocks sizeX (dx t);
  do by_ <- blocks sizeY (dy t);
  Ok (mkGrid (mkDim3 bx by_ 1) t).

(** cuda_helper.cu:192-210 *)
Definition gridParameters3 {E} (e : E) (d : device) (sizeX sizeY sizeZ : Z) : res E grid :=
  do t <- get3DThreadsPerBlock side_fuel (dThreads d);
  do t <- adjust3DThreadsPerBlock (dThreads d) (dBlock d) t;
  guard negb ((u32 (dx t * dx (dGrid d)) <? sizeX) || (u32 (dy t * dy (dGrid d)) <? sizeY)
              || (u32 (dz t * dz (dGrid d)) <? sizeZ)) with e;
  do bx <- blocks sizeX (dx t);
  do by_ <- blocks sizeY (dy t);
  do bz <- blocks sizeZ (dz t);
  Ok (mkGrid (mkDim3 bx by_ bz) t).

(** What the driver requires of a launch (the CUDA programming guide); otherwise
    cudaGetLastError reports an invalid configuration and validateKernel
    (cuda_helper.cu:91-99) throws. *)
Definition launchable (d : device) (g : grid) : bool :=
  let b := gBlocks g in let t := gThreads g in
  (1 <=? dx b) && (dx b <=? dx (dGrid d)) && (1 <=? dy b) && (dy b <=? dy (dGrid d))
  && (1 <=? dz b) && (dz b <=? dz (dGrid d))
  && (1 <=? dx t) && (dx t <=? dx (dBlock d)) && (1 <=? dy t) && (dy t <=? dy (dBlock d))
  && (1 <=? dz t) && (dz t <=? dz (dBlock d))
  && (dx t * dy t * dz t <=? dMax d).

(** ** Threads *)

Inductive prog :=
| PDone
| PLoad (p : ptr) (k : Z -> prog)
| PStore (p : ptr) (v : Z) (k : prog)
| PAtomic (p : ptr) (f : Z -> Z) (k : prog).   (* *p = f( *p ) in one step *)

Definition pstep (m : mem) (t : prog) : res unit (mem * prog) :=
  match t with
  | PDone => Ok (m, PDone)
  | PLoad p k => do v <- load m p; Ok (m, k v)
  | PStore p v k => do m' <- store m p v; Ok (m', k)
  | PAtomic p f k => do v <- load m p; do m' <- store m p (f v); Ok (m', k)
  end.

Fixpoint pstep_nth (m : mem) (ts : list prog) (i : nat) : res unit (mem * list prog) :=
  match ts, i with
  | [], _ => Ok (m, [])
  | t :: ts', O => do (m', t') <- pstep m t; Ok (m', t' :: ts')
  | t :: ts', S k => do (m', ts'') <- pstep_nth m ts' k; Ok (m', t :: ts'')
  end.

Fixpoint prun (sched : list nat) (m : mem) (ts : list prog) : res unit (mem * list prog) :=
  match sched with
  | [] => Ok (m, ts)
  | i :: s => do (m', ts') <- pstep_nth m ts i; prun s m' ts'
  end.

Definition pdone (t : prog) : bool := match t with PDone => true | _ => false end.

(** Run the grid and wait for it; [Timeout]: still running after this schedule. *)
Definition run_grid (sched : list nat) (m : mem) (ts : list prog) : res mem mem :=
  match prun sched m ts with
  | Ok (m', ts') => if forallb pdone ts' then Ok m' else Timeout
  | Throw _ => UB (* prun does not throw *)
  | UB => UB
  | Timeout => Timeout
  end.

(** Do not wait: the memory after the given schedule, whatever the threads have done. *)
Definition peek_grid (sched : list nat) (m : mem) (ts : list prog) : res mem mem :=
  match prun sched m ts with
  | Ok (m', _) => Ok m'
  | Throw _ => UB
  | UB => UB
  | Timeout => Timeout
  end.

Definition zrange (n : Z) : list Z := map Z.of_nat (seq 0 (Z.to_nat n)).

(** blockDim.x * blockIdx.x + threadIdx.x on uint32_t, for every block and thread *)
Definition axis (nblocks nthreads : Z) : list Z :=
  flat_map (fun b => map (fun t => u32 (u32 (nthreads * b) + t)) (zrange nthreads)) (zrange nblocks).

(** (x, y) of every thread of a 2D grid *)
Definition coords (g : grid) : list (Z * Z) :=
  list_prod (axis (dx (gBlocks g)) (dx (gThreads g))) (axis (dy (gBlocks g)) (dy (gThreads g))).

(** cuda_helper.cuh: launchKernel2D; [k x y] is the kernel as run by thread (x, y) *)
Definition launch2D (d : device) (sched : list nat) (m : mem) (sizeX sizeY : Z) (k : Z -> Z -> prog)
    : res mem mem :=
  do g <- gridParameters2 m d sizeX sizeY;
  guard launchable d g with m;
  run_grid sched m (map (fun c => k (fst c) (snd c)) (coords g)).

(** cuda_helper.cuh: launchKernel1D *)
Definition launch1D (d : device) (sched : list nat) (m : mem) (sizeX : Z) (k : Z -> prog) : res mem mem :=
  do g <- gridParameters1 m d sizeX;
  guard launchable d g with m;
  run_grid sched m (map k (axis (dx (gBlocks g)) (dx (gThreads g)))).

(** A launch followed by cudaMemcpy from the result (Type::get, Array::get).  cudaMemcpy
    works in the default stream: it waits for kernels of the default stream, not for kernels
    of a stream made with cudaStreamNonBlocking. *)
Definition launch2D_get (d : device) (sched : list nat) (m : mem) (sizeX sizeY : Z)
    (k : Z -> Z -> prog) : res mem mem :=
  do g <- gridParameters2 m d sizeX sizeY;
  guard launchable d g with m;
  let ts := map (fun c => k (fst c) (snd c)) (coords g) in
  if dStreams d then peek_grid sched m ts else run_grid sched m ts.

(** ** Kernels *)

(** in + y * rowSize + x (pointer arithmetic: only the product is uint32_t) *)
Definition at_ptr (p : ptr) (rs x y : Z) : ptr := padd (padd p (u32 (y * rs))) x.
(** in[y * rowSize + x] (the whole index is uint32_t) *)
Definition at_idx (p : ptr) (rs x y : Z) : ptr := padd p (u32 (u32 (y * rs) + x)).

Definition in_range (x y w h : Z) (t : prog) : prog := if (x <? w) && (y <? h) then t else PDone.

(** image_function_cuda.cu:67-79 (absoluteDifference), 249-275 (maximum, minimum), 367-379
    (subtract): pointers; 81-121 (bitwise functions): indices *)
Definition kernel2 (at_ : ptr -> Z -> Z -> Z -> ptr) (f : Z -> Z -> Z) (in1 : ptr) (rs1 : Z)
    (in2 : ptr) (rs2 : Z) (out : ptr) (rso w h x y : Z) : prog :=
  in_range x y w h
    (PLoad (at_ in1 rs1 x y) (fun a =>
     PLoad (at_ in2 rs2 x y) (fun b =>
     PStore (at_ out rso x y) (f a b) PDone))).

(** image_function_cuda.cu:163-171 (copy), 217-225 (invert), 381-402 (threshold) *)
Definition kernel1 (f : Z -> Z) (inp : ptr) (rsi : Z) (out : ptr) (rso w h x y : Z) : prog :=
  in_range x y w h (PLoad (at_idx inp rsi x y) (fun a => PStore (at_idx out rso x y) (f a) PDone)).

(** image_function_cuda.cu:77, 259, 273, 377, 223, 388, 400 *)
Definition absdiff_k (a b : Z) : Z := u8 (if b <? a then a - b else b - a).
Definition max_k (a b : Z) : Z := if b <? a then a else b.
Definition min_k (a b : Z) : Z := if a <? b then a else b.
Definition sub_k (a b : Z) : Z := u8 (if b <? a then a - b else 0).
Definition invert_k (a : Z) : Z := u8 (Z.lnot a).
Definition thr_k (t a : Z) : Z := if a <? t then 0 else 255.
Definition thr2_k (lo hi a : Z) : Z := if (a <? lo) || (hi <? a) then 0 else 255.

(** image_function_cuda.cu:123-142, the loop over the channels of a pixel *)
Fixpoint sum_channels (n : nat) (p : ptr) (sum : Z) (k : Z -> prog) : prog :=
  match n with
  | O => k sum
  | S n' => PLoad p (fun a => sum_channels n' (padd p 1) (u32 (sum + a)) k)
  end.
Definition grayKernel (inp : ptr) (rsi cc : Z) (out : ptr) (rso w h x y : Z) : prog :=
  in_range x y w h
    (sum_channels (Z.to_nat cc) (padd (padd inp (u32 (y * rsi))) (u32 (x * cc))) 0
       (fun sum => PStore (at_idx out rso x y) (u8 (sum / cc)) PDone)).

(** image_function_cuda.cu:144-161 *)
Fixpoint fill_channels (n : nat) (d s : ptr) : prog :=
  match n with
  | O => PDone
  | S n' => PLoad s (fun a => PStore d a (fill_channels n' (padd d 1) s))
  end.
Definition rgbKernel (inp : ptr) (rsi : Z) (out : ptr) (rso cc w h x y : Z) : prog :=
  in_range x y w h
    (fill_channels (Z.to_nat cc) (padd (padd out (u32 (y * rso))) (u32 (x * cc))) (at_ptr inp rsi x y)).

(** image_function_cuda.cu:173-181 *)
Definition extractKernel (inp : ptr) (rsi cc : Z) (out : ptr) (rso w h x y : Z) : prog :=
  in_range x y w h
    (PLoad (padd inp (u32 (u32 (y * rsi) + u32 (x * cc)))) (fun a => PStore (at_idx out rso x y) a PDone)).

(** image_function_cuda.cu:183-190 *)
Definition fillKernel (p : ptr) (rs w h v x y : Z) : prog :=
  in_range x y w h (PStore (at_idx p rs x y) v PDone).

(** image_function_cuda.cu:192-204 *)
Definition flipKernel (inp : ptr) (rsi : Z) (out : ptr) (rso w h : Z) (horizontal vertical : bool)
    (x y : Z) : prog :=
  in_range x y w h
    (let ox := if horizontal then u32 (w - 1 - x) else x in
     let oy := if vertical then u32 (h - 1 - y) else y in
     PLoad (at_idx inp rsi x y) (fun a => PStore (at_idx out rso ox oy) a PDone)).

(** image_function_cuda.cu:206-215 *)
Definition histogramKernel (p : ptr) (rs w h : Z) (hist : ptr) (x y : Z) : prog :=
  in_range x y w h
    (PLoad (at_idx p rs x y) (fun a => PAtomic (padd hist a) (fun v => u32 (v + 1)) PDone)).

(** image_function_cuda.cu:227-236 *)
Definition isEqualKernel (in1 : ptr) (rs1 : Z) (in2 : ptr) (rs2 w h : Z) (r : ptr) (x y : Z) : prog :=
  in_range x y w h
    (PLoad (at_idx in1 rs1 x y) (fun a =>
     PLoad (at_idx in2 rs2 x y) (fun b =>
     PAtomic r (fun v => Z.land v (if a =? b then 1 else 0)) PDone))).

(** image_function_cuda.cu:238-247 *)
Definition lookupKernel (inp : ptr) (rsi : Z) (out : ptr) (rso w h : Z) (table : ptr) (x y : Z) : prog :=
  in_range x y w h
    (PLoad (at_idx inp rsi x y) (fun a =>
     PLoad (padd table a) (fun v => PStore (at_idx out rso x y) v PDone))).

(** image_function_cuda.cu:277-297 *)
Definition projectionKernel (horizontal : bool) (p : ptr) (rs w h : Z) (proj : ptr) (x y : Z) : prog :=
  in_range x y w h
    (PLoad (at_ptr p rs x y) (fun a =>
     PAtomic (padd proj (if horizontal then x else y)) (fun v => u32 (v + a)) PDone)).

(** image_function_cuda.cu:347-352 *)
Definition setPixelKernel (p : ptr) (rs w h px_ py v : Z) (_ : Z) : prog :=
  in_range px_ py w h (PStore (at_idx p rs px_ py) v PDone).

(** image_function_cuda.cu:354-365; [value] is stored into uint8_t *)
Definition setPixelsKernel (p : ptr) (rs w h : Z) (px_ py : ptr) (n v : Z) (id : Z) : prog :=
  if id <? n
  then PLoad (padd px_ id) (fun x => PLoad (padd py id) (fun y =>
         in_range x y w h (PStore (at_idx p rs x y) (u8 v) PDone)))
  else PDone.

(** ** Functions of namespace Image_Function_Cuda, region of interest forms *)

(** image_function_cuda.cu:423-441, 459-477, 495-513, 531-549, 998-1016, 1034-1052, 1171-1189 *)
Definition cuda2 (at_ : ptr -> Z -> Z -> Z -> ptr) (f : Z -> Z -> Z) (d : device) (sched : list nat)
    (m : mem) (in1 : image) (x1 y1 : Z) (in2 : image) (x2 y2 : Z) (out : image) (xo yo w h : Z)
    : res mem mem :=
  guard valid_roi3 in1 x1 y1 in2 x2 y2 out xo yo w h with m;
  guard common_cc3 in1 in2 out with m;
  let cc := icc in1 in
  let w := u32 (w * cc) in
  launch2D d sched m w h
    (kernel2 at_ f (row_ptr in1 x1 y1 cc) (irs in1) (row_ptr in2 x2 y2 cc) (irs in2)
       (row_ptr out xo yo cc) (irs out) w h).

Definition cuda_AbsoluteDifference := cuda2 at_ptr absdiff_k.
Definition cuda_BitwiseAnd := cuda2 at_idx Z.land.
Definition cuda_BitwiseOr := cuda2 at_idx Z.lor.
Definition cuda_BitwiseXor := cuda2 at_idx Z.lxor.
Definition cuda_Maximum := cuda2 at_ptr max_k.
Definition cuda_Minimum := cuda2 at_ptr min_k.
Definition cuda_Subtract := cuda2 at_ptr sub_k.

(** image_function_cuda.cu:705-721 (Copy), 897-913 (Invert), 1206-1220 and 1238-1252
    (Threshold; VerifyGrayScaleImage makes the colour factor 1) *)
Definition cuda1 (pre : image -> image -> bool) (f : Z -> Z) (d : device) (sched : list nat) (m : mem)
    (inp : image) (xi yi : Z) (out : image) (xo yo w h : Z) : res mem mem :=
  guard valid_roi2 inp xi yi out xo yo w h with m;
  guard pre inp out with m;
  let cc := icc inp in
  let w := u32 (w * cc) in
  launch2D d sched m w h
    (kernel1 f (row_ptr inp xi yi cc) (irs inp) (row_ptr out xo yo cc) (irs out) w h).

Definition cuda_Copy := cuda1 common_cc2 (fun a => a).
Definition cuda_Invert := cuda1 common_cc2 invert_k.
Definition cuda_Threshold (t : Z) := cuda1 (fun a b => is_gray a && is_gray b) (thr_k t).
Definition cuda_Threshold2 (lo hi : Z) := cuda1 (fun a b => is_gray a && is_gray b) (thr2_k lo hi).

(** image_function_cuda.cu:632-653 *)
Definition cuda_ConvertToGrayScale (d : device) (sched : list nat) (m : mem) (inp : image) (xi yi : Z)
    (out : image) (xo yo w h : Z) : res mem mem :=
  guard valid_roi2 inp xi yi out xo yo w h with m;
  guard is_gray out with m;
  if icc inp =? GRAY_SCALE then cuda_Copy d sched m inp xi yi out xo yo w h else
  launch2D d sched m w h
    (grayKernel (row_ptr inp xi yi (icc inp)) (irs inp) (icc inp) (row_ptr out xo yo 1) (irs out) w h).

(** image_function_cuda.cu:670-691 *)
Definition cuda_ConvertToRgb (d : device) (sched : list nat) (m : mem) (inp : image) (xi yi : Z)
    (out : image) (xo yo w h : Z) : res mem mem :=
  guard valid_roi2 inp xi yi out xo yo w h with m;
  guard is_rgb out with m;
  if icc inp =? RGB then cuda_Copy d sched m inp xi yi out xo yo w h else
  launch2D d sched m w h
    (rgbKernel (row_ptr inp xi yi 1) (irs inp) (row_ptr out xo yo (icc out)) (irs out) (icc out) w h).

(** image_function_cuda.cu:738-757 *)
Definition cuda_ExtractChannel (d : device) (sched : list nat) (m : mem) (inp : image) (xi yi : Z)
    (out : image) (xo yo w h ch : Z) : res mem mem :=
  guard valid_roi2 inp xi yi out xo yo w h with m;
  guard is_gray out with m;
  guard (ch <? icc inp) with m;
  launch2D d sched m w h
    (extractKernel (padd (row_ptr inp xi yi (icc inp)) ch) (irs inp) (icc inp)
       (row_ptr out xo yo 1) (irs out) w h).

(** image_function_cuda.cu:764-775 *)
Definition cuda_Fill (d : device) (sched : list nat) (m : mem) (im : image) (x y w h v : Z) : res mem mem :=
  guard valid_roi im x y w h with m;
  guard is_gray im with m;
  launch2D d sched m w h (fillKernel (row_ptr im x y 1) (irs im) w h v).

(** image_function_cuda.cu:793-814 *)
Definition cuda_Flip (d : device) (sched : list nat) (m : mem) (inp : image) (xi yi : Z)
    (out : image) (xo yo w h : Z) (horizontal vertical : bool) : res mem mem :=
  guard valid_roi2 inp xi yi out xo yo w h with m;
  guard (is_gray inp && is_gray out) with m;
  if negb horizontal && negb vertical then cuda_Copy d sched m inp xi yi out xo yo w h else
  let cc := icc inp in
  let w := u32 (w * cc) in
  launch2D d sched m w h
    (flipKernel (row_ptr inp xi yi cc) (irs inp) (row_ptr out xo yo cc) (irs out) w h horizontal vertical).

(** A device array holding [vs] in block [b]; the block is given back when the array is
    destroyed.  cuda_types.cuh:177-183 and 206-209. *)
Definition with_block (m : mem) (b : Z) (vs : list Z) : mem :=
  fun b' => if b' =? b then mkBlock (Z.of_nat (length vs)) (fun o => nth (Z.to_nat o) vs 0) else m b'.
Definition without_block (m m' : mem) (b : Z) : mem := fun b' => if b' =? b then m b' else m' b'.
(** cuda_types.cuh: Array::get *)
Definition block_values (m : mem) (b : Z) : list Z :=
  map (fun o => get m (b, o)) (zrange (len m b)).

(** [f] runs with a device array initialised to [vs]; [fresh] is the oracle *)
Definition with_array {A} (m : mem) (fresh : option Z) (vs : list Z) (f : Z -> mem -> res mem (mem * A))
    : res mem (mem * A) :=
  match fresh with
  | None => Throw m   (* std::logic_error from MemoryAllocator::allocate *)
  | Some b =>
      match f b (with_block m b vs) with
      | Ok (m', a) => Ok (without_block m m' b, a)
      | Throw m' => Throw (without_block m m' b)
      | UB => UB
      | Timeout => Timeout
      end
  end.

(** image_function_cuda.cu:862-880; the result is the memory and the histogram *)
Definition cuda_Histogram (d : device) (fresh : option Z) (sched : list nat) (m : mem) (im : image)
    (x y w h : Z) : res mem (mem * list Z) :=
  guard valid_roi im x y w h with m;
  guard is_gray im with m;
  with_array m fresh (repeat 0 256) (fun b m =>
    do m' <- launch2D_get d sched m w h (histogramKernel (row_ptr im x y 1) (irs im) w h (b, 0));
    Ok (m', block_values m' b)).

(** image_function_cuda.cu:1069-1089 *)
Definition cuda_ProjectionProfile (d : device) (fresh : option Z) (sched : list nat) (m : mem)
    (im : image) (x y w h : Z) (horizontal : bool) : res mem (mem * list Z) :=
  guard valid_roi im x y w h with m;
  let cc := icc im in
  let w := u32 (w * cc) in
  with_array m fresh (repeat 0 (Z.to_nat (if horizontal then w else h))) (fun b m =>
    do m' <- launch2D_get d sched m w h
               (projectionKernel horizontal (row_ptr im x y cc) (irs im) w h (b, 0));
    Ok (m', block_values m' b)).

(** image_function_cuda.cu:922-941 *)
Definition cuda_IsEqual (d : device) (fresh : option Z) (sched : list nat) (m : mem) (in1 : image)
    (x1 y1 : Z) (in2 : image) (x2 y2 w h : Z) : res mem (mem * bool) :=
  guard valid_roi2 in1 x1 y1 in2 x2 y2 w h with m;
  guard common_cc2 in1 in2 with m;
  let cc := icc in1 in
  let w := u32 (w * cc) in
  with_array m fresh [1] (fun b m =>
    do m' <- launch2D_get d sched m w h
               (isEqualKernel (row_ptr in1 x1 y1 cc) (irs in1) (row_ptr in2 x2 y2 cc) (irs in2) w h (b, 0));
    Ok (m', negb (nth 0 (block_values m' b) 0 =? 0))).

(** image_function_cuda.cu:959-980.  The table is destroyed when the function returns; the
    model waits for the kernel before that. *)
Definition cuda_LookupTable (table : list Z) (d : device) (fresh : option Z) (sched : list nat)
    (m : mem) (inp : image) (xi yi : Z) (out : image) (xo yo w h : Z) : res mem (mem * unit) :=
  guard valid_roi2 inp xi yi out xo yo w h with m;
  guard (Z.of_nat (length table) =? 256) with m;
  guard common_cc2 inp out with m;
  let cc := icc inp in
  let w := u32 (w * cc) in
  with_array m fresh table (fun b m =>
    do m' <- launch2D d sched m w h
               (lookupKernel (row_ptr inp xi yi cc) (irs inp) (row_ptr out xo yo cc) (irs out) w h (b, 0));
    Ok (m', tt)).

(** image_function_cuda.cu:1120-1129 *)
Definition cuda_SetPixel (d : device) (sched : list nat) (m : mem) (im : image) (x y v : Z) : res mem mem :=
  guard valid_image im with m;
  guard negb ((iw im <=? x) || (ih im <=? y)) with m;
  launch1D d sched m 1 (setPixelKernel (dataptr im) (irs im) (iw im) (ih im) x y v).

(** image_function_cuda.cu:1131-1153 *)
Definition cuda_SetPixels (d : device) (fresh1 fresh2 : option Z) (sched : list nat) (m : mem)
    (im : image) (X Y : list Z) (v : Z) : res mem (mem * unit) :=
  guard valid_image im with m;
  guard (Nat.eqb (length X) (length Y)) with m;
  if Nat.eqb (length X) 0 then Ok (m, tt) else
  guard forallb (fun q => negb ((iw im <=? fst q) || (ih im <=? snd q))) (combine X Y) with m;
  with_array m fresh1 X (fun b1 m =>
    with_array m fresh2 Y (fun b2 m =>
      let n := u32 (Z.of_nat (length X)) in
      do m' <- launch1D d sched m n
                 (setPixelsKernel (dataptr im) (irs im) (iw im) (ih im) (b1, 0) (b2, 0) n v);
      Ok (m', tt))).

(** ** Copies between host and device *)

(** cudaMemcpy2D: [n] rows of [w] elements; fails when a pitch is smaller than a row *)
Definition memcpy2D (m : mem) (dst : ptr) (dpitch : Z) (src : ptr) (spitch w n : Z) : res mem mem :=
  guard (w <=? dpitch) && (w <=? spitch) with m;
  iterM (Z.to_nat n) 0 (fun j m => memcpy m (padd dst (j * dpitch)) (padd src (j * spitch)) w) m.

(** image_function_cuda.cu:560-582 *)
Definition ConvertToCuda (m : mem) (inp out : image) : res mem mem :=
  guard valid_image inp && valid_image out with m;
  guard (iw inp =? iw out) && (ih inp =? ih out) && (icc inp =? icc out) with m;
  if (ial inp =? 1) || (irs inp =? u32 (iw inp * icc inp))
  then memcpy m (dataptr out) (dataptr inp) (u32 (irs inp * ih inp))
  else memcpy2D m (dataptr out) (irs out) (dataptr inp) (irs inp) (u32 (icc inp * iw inp)) (ih inp).

(** image_function_cuda.cu:593-615; the test looks at out, the size is that of in *)
Definition ConvertFromCuda (m : mem) (inp out : image) : res mem mem :=
  guard valid_image inp && valid_image out with m;
  guard (iw inp =? iw out) && (ih inp =? ih out) && (icc inp =? icc out) with m;
  if (ial out =? 1) || (irs out =? u32 (iw out * icc out))
  then memcpy m (dataptr out) (dataptr inp) (u32 (irs inp * ih inp))
  else memcpy2D m (dataptr out) (irs out) (dataptr inp) (irs inp) (u32 (icc inp * iw inp)) (ih inp).
