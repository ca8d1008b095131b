(** Model of Normalize and GammaCorrection of the function pool (src/function_pool.cpp) and of
    GammaCorrection on the devices (src/cuda/image_function_cuda.cu,
    src/opencl/image_function_opencl.cpp).  Definitions only. *)
From Coq Require Import ZArith List Bool.
From Verif Require Import Base Image ImgFun Double Tone FuncPool Cuda OpenCL.
Import ListNotations.
Open Scope Z_scope.

(** function_pool.cpp:902-913: the first and the last value that occurs; 255 and 0 at first *)
Definition hist_range (hist : list Z) : Z * Z :=
  fold_left
    (fun s i =>
       if 0 <? nth i hist 0
       then (if Z.of_nat i <? fst s then Z.of_nat i else fst s, if snd s <? Z.of_nat i then Z.of_nat i else snd s)
       else s)
    (seq 0 256) (255, 0).

(** function_pool.cpp:896-930.  The table is that of Image_Function::Normalize
    (image_function.cpp:1317-1323), the same expression of the same types.  Copy is
    penguinV::Copy, on this thread. *)
Definition pool_Normalize (junk : double -> res mem Z) (n : Z) (sched : list nat) (m : mem)
    (inp : image) (xi yi : Z) (out : image) (xo yo w h : Z) : res mem mem :=
  do hist <- pool_Histogram n m inp xi yi w h;
  guard (Z.of_nat (length hist) =? 256) with m;
  let '(mn, mx) := hist_range hist in
  if mx <=? mn then Copy m inp xi yi out xo yo w h
  else
    do table <- norm_table junk mn mx;
    pool_LookupTable table n sched m inp xi yi out xo yo w h.

(** What one task does: image_function.cpp:829-837, the table and then LookupTable; the regions
    are checked in LookupTable as well *)
Definition Gamma_code (pow : double -> double -> double) (m : mem) (a gamma : double)
    : image -> Z -> Z -> image -> Z -> Z -> Z -> Z -> code :=
  match gamma_table pow m a gamma with
  | Ok table => pixelwise1_code (fun a b => (Z.of_nat (length table) =? 256) && common_cc2 a b) (table_at table)
  | Throw _ => fun _ _ _ _ _ _ _ _ => Throw tt
  | UB => fun _ _ _ _ _ _ _ _ => UB
  | Timeout => fun _ _ _ _ _ _ _ _ => Timeout
  end.
(** function_pool.cpp:238-250 and 451-454 *)
Definition pool_GammaCorrection (pow : double -> double -> double) (a gamma : double) (n : Z) (sched : list nat) (m : mem)
    (inp : image) (xi yi : Z) (out : image) (xo yo w h : Z) : res mem mem :=
  pool1 (fun _ _ => negb (dlt a (dofZ 0) || dlt gamma (dofZ 0))) (Gamma_code pow m a gamma)
    n sched m inp xi yi out xo yo w h.

(** image_function_cuda.cu:831-840 *)
Definition cuda_GammaCorrection (pow : double -> double -> double) (a gamma : double) (d : device) (fresh : option Z)
    (sched : list nat) (m : mem) (inp : image) (xi yi : Z) (out : image) (xo yo w h : Z) : res mem (mem * unit) :=
  guard valid_roi2 inp xi yi out xo yo w h with m;
  guard is_gray inp && is_gray out with m;
  do table <- gamma_table pow m a gamma;
  cuda_LookupTable table d fresh sched m inp xi yi out xo yo w h.
(** image_function_opencl.cpp:837-846 *)
Definition cl_GammaCorrection (pow : double -> double -> double) (a gamma : double) (d : cldevice) (fresh : option Z)
    (sched : list nat) (m : mem) (inp : image) (xi yi : Z) (out : image) (xo yo w h : Z) : res mem (mem * unit) :=
  guard valid_roi2 inp xi yi out xo yo w h with m;
  guard is_gray inp && is_gray out with m;
  do table <- gamma_table pow m a gamma;
  cl_LookupTable table d fresh sched m inp xi yi out xo yo w h.
