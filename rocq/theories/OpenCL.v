(** Model of the OpenCL back end: src/opencl/opencl_helper.cpp (launches), the kernels and
    functions of src/opencl/image_function_opencl.cpp, OpenCLKernel::setArgument of
    src/opencl/opencl_device.h and memorySet of src/opencl/opencl_device.cpp.  Definitions
    only.

    Conventions.
    - Work-items are the programs [prog] of Cuda.v, run in any interleaving.
    - runKernel (opencl_helper.cpp:76-84) waits for the kernel, so a call returns after every
      work-item is done.
    - size_t is 64 bits wide, a memory object handle takes 8 bytes.
    - A call of the OpenCL library is refused for the reasons named below; other failures
      (program does not compile, lost device, failed copy) are not modelled.
    - A memory object is a block of [mem]; image.data() is a pointer to its start.  An access
      outside the block is undefined.
    - multiCL::Array and multiCL::Type live in a block chosen by an oracle, as in Cuda.v. *)
From Coq Require Import ZArith List Bool.
From Verif Require Import Base Image ImgFun Cuda.
Import ListNotations.
Open Scope Z_scope.

(** size_t *)
Definition W64 : Z := 18446744073709551616.
Definition u64 (z : Z) : Z := z mod W64.

(** ** Launches, opencl_helper.cpp *)

(** What the library tells about a kernel on a device: [clThreads] is
    CL_KERNEL_WORK_GROUP_SIZE (opencl_device.cpp:245-253), [clItems] is
    CL_DEVICE_MAX_WORK_ITEM_SIZES, which penguinV does not look at. *)
Record cldevice := mkCl { clThreads : Z; clItems : dim3 }.

(** opencl_helper.cpp:51-56 and 63-68 *)
Definition side_loop64 {E} (fuel : nat) (shift total : Z) (s : Z * Z) : res E (Z * Z) :=
  loop fuel (fun s => snd s <=? total)
    (fun s => Ok (u64 (Z.shiftl (fst s) 1), u64 (Z.shiftl (snd s) shift))) s.

(** opencl_helper.cpp:49-59 *)
Definition cl_threads2 {E} (fuel : nat) (total : Z) : res E dim3 :=
  do (c, _) <- side_loop64 fuel 2 total (1, 4);
  if c =? 0 then UB else Ok (mkDim3 (total / c) c 1).

(** opencl_helper.cpp:61-74 *)
Definition cl_threads3 {E} (fuel : nat) (total : Z) : res E dim3 :=
  do (c, _) <- side_loop64 fuel 3 total (1, 8);
  if c =? 0 then UB else
  do t <- cl_threads2 fuel (total / c);
  Ok (mkDim3 (dx t) (dy t) c).

(** Number of iterations after which the search for the side has wrapped around. *)
Definition cl_fuel : nat := 64.

(** ((size + threads - 1) / threads) * threads on size_t *)
Definition round_up {E} (size threads : Z) : res E Z :=
  if threads =? 0 then UB else Ok (u64 (u64 (size + threads - 1) / threads * threads)).

(** KernelParameters: dimensionSize and threadsPerBlock (opencl_helper.cpp:183-237); the
    assertions are not modelled. *)
Record ndrange := mkRange { rGlobal : dim3; rLocal : dim3 }.

(** opencl_helper.cpp:239-244 *)
Definition kernelParameters1 {E} (d : cldevice) (sizeX : Z) : res E ndrange :=
  do gx <- round_up sizeX (clThreads d);
  Ok (mkRange (mkDim3 gx 1 1) (mkDim3 (clThreads d) 1 1)).

(** opencl_helper.cpp:246-253 *)
Definition kernelParameters2 {E} (d : cldevice) (sizeX sizeY : Z) : res E ndrange :=
  do t <- cl_threads2 cl_fuel (clThreads d);
  do gx <- round_up sizeX (dx t);
  do gy <- round_up sizeY (dy t);
  Ok (mkRange (mkDim3 gx gy 1) (mkDim3 (dx t) (dy t) 1)).

(** opencl_helper.cpp:255-263 *)
Definition kernelParameters3 {E} (d : cldevice) (sizeX sizeY sizeZ : Z) : res E ndrange :=
  do t <- cl_threads3 cl_fuel (clThreads d);
  do gx <- round_up sizeX (dx t);
  do gy <- round_up sizeY (dy t);
  do gz <- round_up sizeZ (dz t);
  Ok (mkRange (mkDim3 gx gy gz) (mkDim3 (dx t) (dy t) (dz t))).

(** What clEnqueueNDRangeKernel requires of the sizes (the OpenCL specification): no size is
    zero, the work-group size divides the global size in each dimension, a work-group is
    within the limits of the device and of the kernel. *)
Definition cl_accepts (d : cldevice) (r : ndrange) : bool :=
  let g := rGlobal r in let t := rLocal r in
  (1 <=? dx g) && (1 <=? dy g) && (1 <=? dz g)
  && (1 <=? dx t) && (1 <=? dy t) && (1 <=? dz t)
  && (dx g mod dx t =? 0) && (dy g mod dy t =? 0) && (dz g mod dz t =? 0)
  && (dx t <=? dx (clItems d)) && (dy t <=? dy (clItems d)) && (dz t <=? dz (clItems d))
  && (dx t * dy t * dz t <=? clThreads d).

(** opencl_helper.cpp:265-268 and 76-84; [k x] is the kernel as run by work-item x, x being
    get_global_id(0) *)
Definition cl_launch1D (d : cldevice) (sched : list nat) (m : mem) (sizeX : Z) (k : Z -> prog) : res mem mem :=
  do r <- kernelParameters1 d sizeX;
  guard cl_accepts d r with m;
  run_grid sched m (map k (zrange (dx (rGlobal r)))).

(** (get_global_id(0), get_global_id(1)) of every work-item *)
Definition cl_items (r : ndrange) : list (Z * Z) :=
  list_prod (zrange (dx (rGlobal r))) (zrange (dy (rGlobal r))).

(** opencl_helper.cpp:270-273 *)
Definition cl_launch2D (d : cldevice) (sched : list nat) (m : mem) (sizeX sizeY : Z) (k : Z -> Z -> prog)
    : res mem mem :=
  do r <- kernelParameters2 d sizeX sizeY;
  guard cl_accepts d r with m;
  run_grid sched m (map (fun c => k (fst c) (snd c)) (cl_items r)).

(** ** Kernel arguments *)

(** Parameters of a kernel: __global pointer, uint, uchar. *)
Inductive param := Mem | UInt | UChar.
(** Arguments by their C++ type: uint8_t * (in truth a cl_mem), cl_mem, uint32_t, uint8_t,
    bool, size_t. *)
Inductive arg := AMem | AU32 | AU8 | ABool | ASize.

Definition arg_size (a : arg) : Z :=
  match a with AMem => 8 | AU32 => 4 | AU8 => 1 | ABool => 1 | ASize => 8 end.

(** clSetKernelArg for one parameter: the size must be that of the parameter
    (CL_INVALID_ARG_SIZE), the value for a pointer must be a memory object
    (CL_INVALID_MEM_OBJECT) *)
Definition arg_fits (p : param) (a : arg) : bool :=
  match p with
  | Mem => match a with AMem => true | _ => false end
  | UInt => arg_size a =? 4
  | UChar => arg_size a =? 1
  end.

(** opencl_device.h:135-146 and opencl_device.cpp:220-224: one clSetKernelArg after the
    other; a number beyond the last parameter gives CL_INVALID_ARG_INDEX.  clEnqueueNDRangeKernel
    then needs every parameter set (CL_INVALID_KERNEL_ARGS).  true: nothing throws. *)
Fixpoint args_ok (ps : list param) (l : list arg) : bool :=
  match ps, l with
  | [], [] => true
  | p :: ps', a :: l' => arg_fits p a && args_ok ps' l'
  | _, _ => false
  end.

(** image_function_opencl.cpp:74-127, 265-289, 315-327: absoluteDifference, bitwiseAnd,
    bitwiseOr, bitwiseXor, maximum, minimum, subtract *)
Definition params2 : list param := [Mem; UInt; UInt; Mem; UInt; UInt; Mem; UInt; UInt; UInt; UInt].
(** image_function_opencl.cpp:130-131 *)
Definition params_gray : list param := [Mem; UInt; UInt; UChar; Mem; UInt; UInt; UInt; UInt].
(** image_function_opencl.cpp:150-151 *)
Definition params_rgb : list param := [Mem; UInt; UInt; Mem; UInt; UInt; UChar; UInt; UInt].
(** image_function_opencl.cpp:168 (copy), 234 (invert) *)
Definition params1 : list param := [Mem; UInt; UInt; Mem; UInt; UInt; UInt; UInt].
(** image_function_opencl.cpp:178-179 *)
Definition params_extract : list param := [Mem; UInt; UInt; UChar; Mem; UInt; UInt; UInt; UInt; UChar].
(** image_function_opencl.cpp:188 *)
Definition params_fill : list param := [Mem; UInt; UInt; UInt; UInt; UChar].
(** image_function_opencl.cpp:197-198 *)
Definition params_flip : list param := params1 ++ [UChar; UChar].
(** image_function_opencl.cpp:211 (histogram), 222 (intensityRange), 293, 304 (projection) *)
Definition params_sum : list param := [Mem; UInt; UInt; UInt; UInt; Mem].
(** image_function_opencl.cpp:243-244 (isEqual), 255-256 (lookupTable) *)
Definition params_table : list param := params1 ++ [Mem].
(** image_function_opencl.cpp:329 *)
Definition params_setPixel : list param := [Mem; UInt; UInt; UInt; UInt; UInt; UInt; UChar].
(** image_function_opencl.cpp:336-337 *)
Definition params_setPixels : list param := [Mem; UInt; UInt; UInt; UInt; Mem; Mem; UInt; UInt].
(** image_function_opencl.cpp:350-351, 361-362 *)
Definition params_thr : list param := params1 ++ [UChar].
Definition params_thr2 : list param := params1 ++ [UChar; UChar].
(** opencl_device.cpp:51 *)
Definition params_memset : list param := [Mem; UInt; UInt; UChar].

(** ** Kernels *)

(** data[offset + y * rowSize + x], every operand converted to size_t *)
Definition at_cl (p : ptr) (off rs x y : Z) : ptr := padd p (u64 (off + y * rs + x)).

(** image_function_opencl.cpp:74-127, 265-289, 315-327 *)
Definition cl_kernel2 (f : Z -> Z -> Z) (in1 : ptr) (o1 rs1 : Z) (in2 : ptr) (o2 rs2 : Z)
    (out : ptr) (oo rso w h x y : Z) : prog :=
  in_range x y w h
    (PLoad (at_cl in1 o1 rs1 x y) (fun a =>
     PLoad (at_cl in2 o2 rs2 x y) (fun b =>
     PStore (at_cl out oo rso x y) (f a b) PDone))).

(** image_function_opencl.cpp:234-240 (invert), 350-372 (thresholds) *)
Definition cl_kernel1 (f : Z -> Z) (inp : ptr) (oi rsi : Z) (out : ptr) (oo rso w h x y : Z) : prog :=
  in_range x y w h
    (PLoad (at_cl inp oi rsi x y) (fun a => PStore (at_cl out oo rso x y) (f a) PDone)).

(** image_function_opencl.cpp:130-148 *)
Definition cl_grayKernel (inp : ptr) (oi rsi cc : Z) (out : ptr) (oo rso w h x y : Z) : prog :=
  in_range x y w h
    (sum_channels (Z.to_nat cc) (padd inp (u64 (oi + rsi * y + x * cc))) 0
       (fun sum => PStore (at_cl out oo rso x y) (u8 (sum / cc)) PDone)).

(** image_function_opencl.cpp:150-166 *)
Definition cl_rgbKernel (inp : ptr) (oi rsi : Z) (out : ptr) (oo rso cc w h x y : Z) : prog :=
  in_range x y w h
    (fill_channels (Z.to_nat cc) (padd out (u64 (oo + rso * y + x * cc))) (at_cl inp oi rsi x y)).

(** image_function_opencl.cpp:168-176; the index of the output starts with rowSizeOut, the
    parameter offsetOut is not used *)
Definition cl_copyKernel (inp : ptr) (oi rsi : Z) (out : ptr) (oo rso w h x y : Z) : prog :=
  in_range x y w h
    (PLoad (at_cl inp oi rsi x y) (fun a => PStore (at_cl out rso rso x y) a PDone)).

(** image_function_opencl.cpp:178-186; the whole position is multiplied by colorCount *)
Definition cl_extractKernel (inp : ptr) (oi rsi cc : Z) (out : ptr) (oo rso w h ch x y : Z) : prog :=
  in_range x y w h
    (PLoad (padd inp (u64 (oi + (y * rsi + x) * cc + ch))) (fun a => PStore (at_cl out oo rso x y) a PDone)).

(** image_function_opencl.cpp:188-195 *)
Definition cl_fillKernel (p : ptr) (o rs w h v x y : Z) : prog :=
  in_range x y w h (PStore (at_cl p o rs x y) v PDone).

(** image_function_opencl.cpp:197-209 *)
Definition cl_flipKernel (inp : ptr) (oi rsi : Z) (out : ptr) (oo rso w h : Z) (horizontal vertical : bool)
    (x y : Z) : prog :=
  in_range x y w h
    (let ox := if horizontal then u64 (w - 1 - x) else x in
     let oy := if vertical then u64 (h - 1 - y) else y in
     PLoad (at_cl inp oi rsi x y) (fun a => PStore (at_cl out oo rso ox oy) a PDone)).

(** image_function_opencl.cpp:211-220 *)
Definition cl_histogramKernel (p : ptr) (o rs w h : Z) (hist : ptr) (x y : Z) : prog :=
  in_range x y w h
    (PLoad (at_cl p o rs x y) (fun a => PAtomic (padd hist a) (fun v => u32 (v + 1)) PDone)).

(** image_function_opencl.cpp:222-232; data[id] is read twice *)
Definition cl_rangeKernel (p : ptr) (o rs w h : Z) (range : ptr) (x y : Z) : prog :=
  in_range x y w h
    (PLoad (at_cl p o rs x y) (fun a => PAtomic range (fun v => Z.min v a)
    (PLoad (at_cl p o rs x y) (fun b => PAtomic (padd range 1) (fun v => Z.max v b) PDone)))).

(** image_function_opencl.cpp:243-253 *)
Definition cl_isEqualKernel (inp : ptr) (oi rsi : Z) (out : ptr) (oo rso w h : Z) (r : ptr) (x y : Z) : prog :=
  in_range x y w h
    (PLoad (at_cl out oo rso x y) (fun a =>
     PLoad (at_cl inp oi rsi x y) (fun b =>
     if negb (a =? b) then PAtomic r (fun v => u32 (v + 1)) PDone else PDone))).

(** image_function_opencl.cpp:255-263 *)
Definition cl_lookupKernel (inp : ptr) (oi rsi : Z) (out : ptr) (oo rso w h : Z) (table : ptr) (x y : Z) : prog :=
  in_range x y w h
    (PLoad (at_cl inp oi rsi x y) (fun a =>
     PLoad (padd table a) (fun v => PStore (at_cl out oo rso x y) v PDone))).

(** image_function_opencl.cpp:293-313 *)
Definition cl_projectionKernel (horizontal : bool) (p : ptr) (o rs w h : Z) (proj : ptr) (x y : Z) : prog :=
  in_range x y w h
    (PLoad (at_cl p o rs x y) (fun a =>
     PAtomic (padd proj (if horizontal then x else y)) (fun v => u32 (v + a)) PDone)).

(** image_function_opencl.cpp:329-334: every work-item does the same; x and y are uint, so
    y * rowSize + x and the sum with offset are uint as well *)
Definition cl_setPixelKernel (p : ptr) (o rs w h px_ py v : Z) (_ : Z) : prog :=
  in_range px_ py w h (PStore (padd p (u32 (u32 (o + u32 (py * rs)) + px_))) v PDone).

(** image_function_opencl.cpp:336-348 *)
Definition cl_setPixelsKernel (p : ptr) (o rs w h : Z) (px_ py : ptr) (n v : Z) (id : Z) : prog :=
  if id <? n
  then PLoad (padd px_ id) (fun x => PLoad (padd py id) (fun y =>
         in_range x y w h (PStore (padd p (u32 (u32 (o + u32 (y * rs)) + x))) (u8 v) PDone)))
  else PDone.

(** opencl_device.cpp:51-57 *)
Definition cl_memsetKernel (p : ptr) (o n v : Z) (x : Z) : prog :=
  if x <? n then PStore (padd p (u64 (o + x))) v PDone else PDone.

(** ** Functions of namespace Image_Function_OpenCL, region of interest forms *)

(** startY * rowSize + startX * colorCount on uint32_t *)
Definition start_at (im : image) (x y cc : Z) : Z := u32 (u32 (y * irs im) + u32 (x * cc)).
(** startX * rowSize + startY * colorCount: 639, 679, 713, 751, 774, 881, 992, 1226, 1290, 1325 *)
Definition swapped_at (im : image) (x y cc : Z) : Z := u32 (u32 (x * irs im) + u32 (y * cc)).

(** image_function_opencl.cpp:395-417, 434-456, 473-495, 512-534, 1016-1038, 1055-1077,
    1193-1215 *)
Definition cl2 (f : Z -> Z -> Z) (d : cldevice) (sched : list nat) (m : mem)
    (in1 : image) (x1 y1 : Z) (in2 : image) (x2 y2 : Z) (out : image) (xo yo w h : Z) : res mem mem :=
  guard valid_roi3 in1 x1 y1 in2 x2 y2 out xo yo w h with m;
  guard common_cc3 in1 in2 out with m;
  let cc := icc in1 in
  let w := u32 (w * cc) in
  guard args_ok params2 [AMem; AU32; AU32; AMem; AU32; AU32; AMem; AU32; AU32; AU32; AU32] with m;
  cl_launch2D d sched m w h
    (cl_kernel2 f (dataptr in1) (start_at in1 x1 y1 cc) (irs in1) (dataptr in2) (start_at in2 x2 y2 cc) (irs in2)
       (dataptr out) (start_at out xo yo cc) (irs out) w h).

Definition cl_AbsoluteDifference := cl2 absdiff_k.
Definition cl_BitwiseAnd := cl2 Z.land.
Definition cl_BitwiseOr := cl2 Z.lor.
Definition cl_BitwiseXor := cl2 Z.lxor.
Definition cl_Maximum := cl2 max_k.
Definition cl_Minimum := cl2 min_k.
Definition cl_Subtract := cl2 sub_k.

(** image_function_opencl.cpp:906-925 *)
Definition cl_Invert (d : cldevice) (sched : list nat) (m : mem) (inp : image) (xi yi : Z)
    (out : image) (xo yo w h : Z) : res mem mem :=
  guard valid_roi2 inp xi yi out xo yo w h with m;
  guard common_cc2 inp out with m;
  let cc := icc inp in
  let w := u32 (w * cc) in
  guard args_ok params1 [AMem; AU32; AU32; AMem; AU32; AU32; AU32; AU32] with m;
  cl_launch2D d sched m w h
    (cl_kernel1 invert_k (dataptr inp) (start_at inp xi yi cc) (irs inp)
       (dataptr out) (start_at out xo yo cc) (irs out) w h).

(** image_function_opencl.cpp:702-721 *)
Definition cl_Copy (d : cldevice) (sched : list nat) (m : mem) (inp : image) (xi yi : Z)
    (out : image) (xo yo w h : Z) : res mem mem :=
  guard valid_roi2 inp xi yi out xo yo w h with m;
  guard common_cc2 inp out with m;
  let cc := icc inp in
  let w := u32 (w * cc) in
  guard args_ok params1 [AMem; AU32; AU32; AMem; AU32; AU32; AU32; AU32] with m;
  cl_launch2D d sched m w h
    (cl_copyKernel (dataptr inp) (swapped_at inp xi yi cc) (irs inp)
       (dataptr out) (start_at out xo yo cc) (irs out) w h).

(** image_function_opencl.cpp:1280-1298 and 1315-1333 *)
Definition cl_thr (ps : list param) (l : list arg) (f : Z -> Z) (d : cldevice) (sched : list nat) (m : mem)
    (inp : image) (xi yi : Z) (out : image) (xo yo w h : Z) : res mem mem :=
  guard valid_roi2 inp xi yi out xo yo w h with m;
  guard (is_gray inp && is_gray out) with m;
  guard args_ok ps ([AMem; AU32; AU32; AMem; AU32; AU32; AU32; AU32] ++ l) with m;
  cl_launch2D d sched m w h
    (cl_kernel1 f (dataptr inp) (swapped_at inp xi yi 1) (irs inp)
       (dataptr out) (start_at out xo yo 1) (irs out) w h).
Definition cl_Threshold (t : Z) := cl_thr params_thr [AU8] (thr_k t).
Definition cl_Threshold2 (lo hi : Z) := cl_thr params_thr2 [AU8; AU8] (thr2_k lo hi).

(** image_function_opencl.cpp:690-695: out = in for images of one type.  image_buffer.h:212-232:
    out releases its memory and gets a new block (the oracle) with the bytes of in; the
    released block is left as it is in the model. *)
Definition cl_CopyImage (fresh : option Z) (m : mem) (inp out : image) : res mem (mem * image) :=
  guard valid_pair inp out with m;
  guard (ity inp =? ity out) with m;
  match fresh with
  | None => Throw m
  | Some b =>
      let n := ih inp * irs inp in
      let new := mkImage (iw inp) (ih inp) (icc inp) (ial inp) (irs inp) (Some (b, 0)) (ity inp) in
      do m' <- memcpy (with_block m b (repeat 0 (Z.to_nat n))) (b, 0) (dataptr inp) n;
      Ok (m', new)
  end.

(** The image of the caller's output variable after the call: unchanged here. *)
Definition keep (out : image) (r : res mem mem) : res mem (mem * image) := do m' <- r; Ok (m', out).

(** image_function_opencl.cpp:626-649 *)
Definition cl_ConvertToGrayScale (d : cldevice) (fresh : option Z) (sched : list nat) (m : mem)
    (inp : image) (xi yi : Z) (out : image) (xo yo w h : Z) : res mem (mem * image) :=
  guard valid_roi2 inp xi yi out xo yo w h with m;
  guard is_gray out with m;
  if icc inp =? GRAY_SCALE then cl_CopyImage fresh m inp out else
  guard args_ok params_gray [AMem; AU32; AU32; AU8; AMem; AU32; AU32; AU32; AU32] with m;
  keep out (cl_launch2D d sched m w h
    (cl_grayKernel (dataptr inp) (swapped_at inp xi yi (icc inp)) (irs inp) (icc inp)
       (dataptr out) (start_at out xo yo (icc out)) (irs out) w h)).

(** image_function_opencl.cpp:666-688 *)
Definition cl_ConvertToRgb (d : cldevice) (fresh : option Z) (sched : list nat) (m : mem)
    (inp : image) (xi yi : Z) (out : image) (xo yo w h : Z) : res mem (mem * image) :=
  guard valid_roi2 inp xi yi out xo yo w h with m;
  guard is_rgb out with m;
  if icc inp =? RGB then cl_CopyImage fresh m inp out else
  guard args_ok params_rgb [AMem; AU32; AU32; AMem; AU32; AU32; AU8; AU32; AU32] with m;
  keep out (cl_launch2D d sched m w h
    (cl_rgbKernel (dataptr inp) (swapped_at inp xi yi (icc inp)) (irs inp)
       (dataptr out) (start_at out xo yo (icc out)) (irs out) (icc out) w h)).

(** image_function_opencl.cpp:738-759 *)
Definition cl_ExtractChannel (d : cldevice) (sched : list nat) (m : mem) (inp : image) (xi yi : Z)
    (out : image) (xo yo w h ch : Z) : res mem mem :=
  guard valid_roi2 inp xi yi out xo yo w h with m;
  guard is_gray out with m;
  guard (ch <? icc inp) with m;
  guard args_ok params_extract [AMem; AU32; AU32; AU8; AMem; AU32; AU32; AU32; AU32; AU8] with m;
  cl_launch2D d sched m w h
    (cl_extractKernel (dataptr inp) (swapped_at inp xi yi (icc inp)) (irs inp) (icc inp)
       (dataptr out) (start_at out xo yo (icc out)) (irs out) w h ch).

(** image_function_opencl.cpp:766-780 *)
Definition cl_Fill (d : cldevice) (sched : list nat) (m : mem) (im : image) (x y w h v : Z) : res mem mem :=
  guard valid_roi im x y w h with m;
  guard is_gray im with m;
  guard args_ok params_fill [AMem; AU32; AU32; AU32; AU32; AU8] with m;
  cl_launch2D d sched m w h (cl_fillKernel (dataptr im) (swapped_at im x y 1) (irs im) w h v).

(** image_function_opencl.cpp:797-820; the kernel works on in.width() x in.height() *)
Definition cl_Flip (d : cldevice) (sched : list nat) (m : mem) (inp : image) (xi yi : Z)
    (out : image) (xo yo w h : Z) (horizontal vertical : bool) : res mem mem :=
  guard valid_roi2 inp xi yi out xo yo w h with m;
  guard (is_gray inp && is_gray out) with m;
  if negb horizontal && negb vertical then cl_Copy d sched m inp xi yi out xo yo w h else
  guard args_ok params_flip [AMem; AU32; AU32; AMem; AU32; AU32; AU32; AU32; ABool; ABool] with m;
  cl_launch2D d sched m (iw inp) (ih inp)
    (cl_flipKernel (dataptr inp) (start_at inp xi yi 1) (irs inp) (dataptr out) (start_at out xo yo 1) (irs out)
       (iw inp) (ih inp) horizontal vertical).

(** image_function_opencl.cpp:868-889 *)
Definition cl_Histogram (d : cldevice) (fresh : option Z) (sched : list nat) (m : mem) (im : image)
    (x y w h : Z) : res mem (mem * list Z) :=
  guard valid_roi im x y w h with m;
  guard is_gray im with m;
  with_array m fresh (repeat 0 256) (fun b m =>
    guard args_ok params_sum [AMem; AU32; AU32; AU32; AU32; AMem] with m;
    do m' <- cl_launch2D d sched m w h
               (cl_histogramKernel (dataptr im) (swapped_at im x y 1) (irs im) w h (b, 0));
    Ok (m', block_values m' b)).

(** image_function_opencl.cpp:1151-1176 *)
Definition cl_ProjectionProfile (d : cldevice) (fresh : option Z) (sched : list nat) (m : mem)
    (im : image) (x y w h : Z) (horizontal : bool) : res mem (mem * list Z) :=
  guard valid_roi im x y w h with m;
  let cc := icc im in
  let w := u32 (w * cc) in
  with_array m fresh (repeat 0 (Z.to_nat (if horizontal then w else h))) (fun b m =>
    guard args_ok params_sum [AMem; AU32; AU32; AU32; AU32; AMem] with m;
    do m' <- cl_launch2D d sched m w h
               (cl_projectionKernel horizontal (dataptr im) (start_at im x y cc) (irs im) w h (b, 0));
    Ok (m', block_values m' b)).

(** image_function_opencl.cpp:934-957 *)
Definition cl_IsEqual (d : cldevice) (fresh : option Z) (sched : list nat) (m : mem) (inp : image)
    (xi yi : Z) (out : image) (xo yo w h : Z) : res mem (mem * bool) :=
  guard valid_roi2 inp xi yi out xo yo w h with m;
  with_array m fresh [0] (fun b m =>
    guard common_cc2 inp out with m;
    let cc := icc inp in
    let w := u32 (w * cc) in
    guard args_ok params_table [AMem; AU32; AU32; AMem; AU32; AU32; AU32; AU32; AMem] with m;
    do m' <- cl_launch2D d sched m w h
               (cl_isEqualKernel (dataptr inp) (start_at inp xi yi cc) (irs inp)
                  (dataptr out) (start_at out xo yo cc) (irs out) w h (b, 0));
    Ok (m', nth 0 (block_values m' b) 0 =? 0)).

(** image_function_opencl.cpp:974-999 *)
Definition cl_LookupTable (table : list Z) (d : cldevice) (fresh : option Z) (sched : list nat)
    (m : mem) (inp : image) (xi yi : Z) (out : image) (xo yo w h : Z) : res mem (mem * unit) :=
  guard valid_roi2 inp xi yi out xo yo w h with m;
  guard (Z.of_nat (length table) =? 256) with m;
  with_array m fresh table (fun b m =>
    guard common_cc2 inp out with m;
    let cc := icc inp in
    let w := u32 (w * cc) in
    guard args_ok params_table [AMem; AU32; AU32; AMem; AU32; AU32; AU32; AU32; AMem] with m;
    do m' <- cl_launch2D d sched m w h
               (cl_lookupKernel (dataptr inp) (swapped_at inp xi yi cc) (irs inp)
                  (dataptr out) (start_at out xo yo cc) (irs out) w h (b, 0));
    Ok (m', tt)).

(** image_function_opencl.cpp:1094-1134.  [tab lo hi] stands for the table of lines
    1126-1130 (double arithmetic is not modelled here); [sched'] and [fresh'] are for the
    second launch.  From the launch on [w] is already multiplied by the channel count. *)
Definition cl_Normalize (tab : Z -> Z -> list Z) (d : cldevice) (fresh fresh' : option Z)
    (sched sched' : list nat) (m : mem) (inp : image) (xi yi : Z) (out : image) (xo yo w h : Z)
    : res mem (mem * unit) :=
  guard valid_roi2 inp xi yi out xo yo w h with m;
  guard common_cc2 inp out with m;
  let cc := icc inp in
  let w := u32 (w * cc) in
  with_array m fresh [255; 0] (fun b m =>
    guard args_ok params_sum [AMem; AU32; AU32; AMem; AU32; AU32; AU32; AU32; AMem] with m;
    do m <- cl_launch2D d sched m w h
              (cl_rangeKernel (dataptr inp) (start_at inp xi yi cc) (irs inp) w h (b, 0));
    let lo := get m (b, 0) in
    let hi := get m (b, 1) in
    if ((lo =? 0) && (hi =? 255)) || (lo =? hi)
    then do m' <- cl_Copy d sched' m inp xi yi out xo yo w h; Ok (m', tt)
    else cl_LookupTable (tab lo hi) d fresh' sched' m inp xi yi out xo yo w h).

(** Two kernels are named setPixelOpenCL (329 and 336); which of them clCreateKernel finds,
    or that it finds none, is an oracle. *)
Inductive overload := NoKernel | OnePixel | ManyPixels.

(** image_function_opencl.cpp:1217-1235 *)
Definition cl_SetPixel (ov : overload) (d : cldevice) (sched : list nat) (m : mem) (im : image)
    (x y v : Z) : res mem mem :=
  guard valid_image im with m;
  guard (match ov with NoKernel => false | _ => true end) with m;
  guard negb ((iw im <=? x) || (ih im <=? y)) with m;
  let l := [AMem; AU32; AU32; AU32; AU32; AU32; AU32; AU8] in
  match ov with
  | OnePixel =>
      guard args_ok params_setPixel l with m;
      cl_launch1D d sched m 1
        (cl_setPixelKernel (dataptr im) (swapped_at im x y 1) (irs im) (iw im) (ih im) x y v)
  | _ =>
      guard args_ok params_setPixels l with m;
      UB (* not reached: args_ok is false *)
  end.

(** image_function_opencl.cpp:1237-1263; the argument for offset is missing *)
Definition cl_SetPixels (ov : overload) (d : cldevice) (fresh1 fresh2 : option Z) (sched : list nat) (m : mem)
    (im : image) (X Y : list Z) (v : Z) : res mem (mem * unit) :=
  guard valid_image im with m;
  guard (match ov with NoKernel => false | _ => true end) with m;
  guard negb (Nat.eqb (length X) 0) && Nat.eqb (length X) (length Y) with m;
  guard forallb (fun q => negb ((iw im <=? fst q) || (ih im <=? snd q))) (combine X Y) with m;
  let l := [AMem; AU32; AU32; AU32; AMem; AMem; ASize; AU8] in
  with_array m fresh1 X (fun b1 m =>
    with_array m fresh2 Y (fun b2 m =>
      match ov with
      | ManyPixels =>
          guard args_ok params_setPixels l with m;
          let n := u32 (Z.of_nat (length X)) in
          do m' <- cl_launch1D d sched m n
                     (cl_setPixelsKernel (dataptr im) 0 (irs im) (iw im) (ih im) (b1, 0) (b2, 0) n v);
          Ok (m', tt)
      | _ =>
          guard args_ok params_setPixel l with m;
          UB (* not reached: args_ok is false *)
      end)).

(** opencl_device.cpp:111-119, pattern of one byte *)
Definition cl_memorySet (d : cldevice) (sched : list nat) (m : mem) (p : ptr) (v offset size : Z) : res mem mem :=
  guard args_ok params_memset [AMem; AU32; AU32; AU8] with m;
  cl_launch1D d sched m size (cl_memsetKernel p (u32 offset) (u32 size) v).

(** image_function_opencl.cpp:761-764, image_buffer.h:190-197, image_buffer_opencl.h *)
Definition cl_FillImage (d : cldevice) (sched : list nat) (m : mem) (im : image) (v : Z) : res mem mem :=
  if iempty im then Ok m else cl_memorySet d sched m (dataptr im) v 0 (u64 (ih im * irs im)).

(** ** Copies between host and device *)

(** image_function_opencl.cpp:560-579.  clEnqueueWriteBuffer checks the size against the
    memory object, which holds rowSize * height bytes of out (CL_INVALID_VALUE);
    clEnqueueWriteImage gets a buffer where it needs an image object
    (CL_INVALID_MEM_OBJECT). *)
Definition ConvertToOpenCL (m : mem) (inp out : image) : res mem mem :=
  guard valid_image inp && valid_image out with m;
  guard (iw inp =? iw out) && (ih inp =? ih out) && (icc inp =? icc out) with m;
  if (ial inp =? 1) || (irs inp =? u32 (iw inp * icc inp))
  then guard (u64 (irs inp * ih inp) <=? ih out * irs out) with m;
       memcpy m (dataptr out) (dataptr inp) (u64 (irs inp * ih inp))
  else Throw m.

(** image_function_opencl.cpp:590-609; the size is that of in, so it fits the memory object;
    out is in host memory *)
Definition ConvertFromOpenCL (m : mem) (inp out : image) : res mem mem :=
  guard valid_pair inp out with m;
  guard (iw inp =? iw out) && (ih inp =? ih out) && (icc inp =? icc out) with m;
  if (ial out =? 1) || (irs out =? u32 (iw out * icc out))
  then memcpy m (dataptr out) (dataptr inp) (u64 (irs inp * ih inp))
  else Throw m.
