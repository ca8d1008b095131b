(** Model of Rotate on a CUDA device, src/cuda/image_function_cuda.cu:299-345 and 1091-1118.
    Definitions only.

    The arithmetic on float is a parameter ([farith]): a type of numbers with any operations.
    A conversion to int32_t gives some int32_t, also for numbers out of range, as the conversion
    instructions of the device do; a conversion to uint8_t gives some uint8_t.  The kernel is run
    to its end. *)
From Coq Require Import ZArith List Bool.
From Verif Require Import Base Image ImgFun Cuda.
Import ListNotations.
Open Scope Z_scope.

Record farith := mkFarith {
  fnum : Type;
  fofZ : Z -> fnum;               (* uint8_t, int32_t, uint32_t and int to float *)
  fhalf : fnum;                   (* 0.5f *)
  fadd : fnum -> fnum -> fnum;
  fsub : fnum -> fnum -> fnum;
  fmul : fnum -> fnum -> fnum;
  fopp : fnum -> fnum;
  fint : fnum -> Z;               (* static_cast<int32_t> *)
  fbyte : fnum -> Z               (* static_cast<uint8_t> *)
}.

Section ROTATE.
Context (A : farith).

(** image_function_cuda.cu:315-316 *)
Definition exact_x (xs c s : fnum A) (x y : Z) : fnum A :=
  fadd A (fadd A xs (fmul A c (fofZ A x))) (fmul A s (fofZ A y)).
Definition exact_y (ys c s : fnum A) (x y : Z) : fnum A :=
  fadd A (fsub A ys (fmul A s (fofZ A x))) (fmul A c (fofZ A y)).

(** image_function_cuda.cu:325: inX >= width - 1, where inX is converted to uint32_t *)
Definition beyond (i n : Z) : bool := (i <? 0) || (u32 (n - 1) <=? u32 i).

(** image_function_cuda.cu:335-341 *)
Definition mean4 (px py : fnum A) (a b c d : Z) : fnum A :=
  let one := fofZ A 1 in
  let qx := fsub A one px in let qy := fsub A one py in
  fadd A (fadd A (fadd A (fadd A
    (fmul A (fmul A (fofZ A a) qx) qy)
    (fmul A (fmul A (fofZ A b) px) qy))
    (fmul A (fmul A (fofZ A c) qx) py))
    (fmul A (fmul A (fofZ A d) px) py))
    (fhalf A).

(** image_function_cuda.cu:299-345; the product inY * rowSizeIn is uint32_t *)
Definition rotateKernel (inp : ptr) (rsi : Z) (out : ptr) (rso : Z) (xs ys : fnum A) (w h : Z) (c s : fnum A)
    (x y : Z) : prog :=
  in_range x y w h
    (let ex := exact_x xs c s x y in
     let ey := exact_y ys c s x y in
     let inX := fint A ex in
     let inY := fint A ey in
     let o := at_ptr out rso x y in
     if beyond inX w || beyond inY h then PStore o 0 PDone
     else
       let p := padd (padd inp (u32 (inY * rsi))) inX in
       PLoad p (fun v00 => PLoad (padd p 1) (fun v10 =>
       PLoad (padd p rsi) (fun v01 => PLoad (padd (padd p rsi) 1) (fun v11 =>
       PStore o (fbyte A (mean4 (fsub A ex (fofZ A inX)) (fsub A ey (fofZ A inY)) v00 v10 v01 v11)) PDone))))).

(** image_function_cuda.cu:1091-1118; [c] and [s] are what cos and sin return for the angle *)
Definition cuda_Rotate (d : device) (sched : list nat) (m : mem) (inp : image) (cxi cyi : fnum A)
    (out : image) (cxo cyo : fnum A) (c s : fnum A) : res mem mem :=
  guard valid_pair inp out with m;
  guard is_gray inp && is_gray out with m;
  let xs := fadd A (fopp A (fadd A (fmul A c cxo) (fmul A s cyo))) cxi in
  let ys := fadd A (fopp A (fadd A (fmul A (fopp A s) cxo) (fmul A c cyo))) cyi in
  launch2D d sched m (iw inp) (ih inp)
    (rotateKernel (dataptr inp) (irs inp) (dataptr out) (irs out) xs ys (iw inp) (ih inp) c s).
End ROTATE.
