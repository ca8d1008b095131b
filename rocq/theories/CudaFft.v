(** Model of the CUDA side of the Fourier transform, src/cuda/cuda_fft.cu, without the
    transforms themselves (cuFFT).  Definitions only.

    A cufftComplex is two memory elements, the real part first; an element holds the bit
    pattern of a float.  What the arithmetic of the device does with bit patterns is a
    parameter ([fops]): any functions, so also fused or differently rounded operations.  The
    conversion of a float outside the range of uint8_t is one of them and not undefined.
    cudaMalloc and the allocation of an image return a block given as an argument and what the
    block contains is an argument; they may also fail ([None]).  The kernels are run to their
    end; what is read back without waiting is the subject of C126.  After an exception only the
    memory is given, not the fields of the object. *)
From Coq Require Import ZArith List Bool.
From Verif Require Import Base Image ImgFun Cuda.
Import ListNotations.
Open Scope Z_scope.

Record fops := mkFops {
  of_byte : Z -> Z;                 (* uint8_t to float, cuda_fft.cu:37 *)
  f_re : Z -> Z -> Z -> Z -> Z;     (* a * c - b * d of a, b, c, d; cuda_fft.cu:83 *)
  f_im : Z -> Z -> Z -> Z -> Z;     (* a * d + b * c of a, b, c, d; cuda_fft.cu:84 *)
  to_px : Z -> Z -> Z               (* static_cast<uint8_t>( v / size + 0.5f ) of v and the integer that
                                       size is converted from; cuda_fft.cu:68 and 145 *)
}.

(** fft_base.h:117-119: _data, _width, _height; [None] is the null pointer *)
Record ccomplex := mkCC { ccp : option ptr; ccw : Z; cch : Z }.

(** A block of [n] elements. *)
Definition new_block (m : mem) (b n : Z) (junk : Z -> Z) : mem :=
  fun b' => if b' =? b then mkBlock n junk else m b'.
Definition drop_block (m : mem) (b : Z) : mem := new_block m b 0 (fun _ => 0).

(** Element [id] of an array of complex numbers: its real and its imaginary part *)
Definition re_at (p : ptr) (id : Z) : ptr := padd p (2 * id).
Definition im_at (p : ptr) (id : Z) : ptr := padd p (2 * id + 1).

(** y * width + x on uint32_t *)
Definition elem_id (w x y : Z) : Z := u32 (u32 (y * w) + x).

(** cuda_fft.cu:30-40 *)
Definition copyFromImageKernel (F : fops) (inp out : ptr) (w h x y : Z) : prog :=
  in_range x y w h
    (let id := elem_id w x y in
     PLoad (padd inp id) (fun v =>
     PStore (re_at out id) (of_byte F v) (PStore (im_at out id) 0 PDone))).

(** cuda_fft.cu:42-52; an element of the array of floats is one memory element *)
Definition copyFromFloatKernel (inp out : ptr) (w h x y : Z) : prog :=
  in_range x y w h
    (let id := elem_id w x y in
     PLoad (padd inp id) (fun v => PStore (re_at out id) v (PStore (im_at out id) 0 PDone))).

(** cuda_fft.cu:63-66 *)
Definition swap_half (n k : Z) : Z := let mid := n / 2 in if k <? mid then u32 (mid + k) else u32 (k - mid).

(** cuda_fft.cu:54-70; [n] is the number of pixels *)
Definition copyToImageKernel (F : fops) (inp out : ptr) (n w h x y : Z) : prog :=
  in_range x y w h
    (PLoad (re_at inp (elem_id w x y)) (fun v =>
     PStore (padd out (elem_id w (swap_half w x) (swap_half h y))) (to_px F v n) PDone)).

(** cuda_fft.cu:72-87.  The second assignment reads its operands again: nothing says that [out]
    is another array. *)
Definition complexMultiplicationKernel (F : fops) (in1 in2 out : ptr) (w h x y : Z) : prog :=
  in_range x y w h
    (let id := elem_id w x y in
     PLoad (re_at in1 id) (fun a => PLoad (re_at in2 id) (fun c =>
     PLoad (im_at in1 id) (fun b => PLoad (im_at in2 id) (fun d =>
     PStore (re_at out id) (f_re F a b c d)
    (PLoad (re_at in1 id) (fun a => PLoad (im_at in2 id) (fun d =>
     PLoad (im_at in1 id) (fun b => PLoad (re_at in2 id) (fun c =>
     PStore (im_at out id) (f_im F a b c d) PDone)))))))))).

(** fft_base.h:121-130, _clean, with cudaFree (cuda_fft.cu:158-161) *)
Definition cclean (m : mem) (c : ccomplex) : mem :=
  match ccp c with None => m | Some p => drop_block m (fst p) end.

(** cuda_fft.cu:115-129, set from an image; the size of the array is a uint32_t product *)
Definition cset_image (F : fops) (d : device) (fresh : option Z) (junk : Z -> Z) (sched : list nat) (m : mem)
    (c : ccomplex) (im : image) : res mem (mem * ccomplex) :=
  guard negb (match idata im with None => true | Some _ => false end || negb (icc im =? 1)) with m;
  let m := cclean m c in
  match fresh with
  | None => Throw m
  | Some b =>
      let m := new_block m b (2 * u32 (iw im * ih im)) junk in
      do m' <- launch2D d sched m (iw im) (ih im) (copyFromImageKernel F (dataptr im) (b, 0) (iw im) (ih im));
      Ok (m', mkCC (Some (b, 0)) (iw im) (ih im))
  end.

(** cuda_fft.cu:131-138, set from an array of [n] floats at [inp] *)
Definition cset_array (d : device) (sched : list nat) (m : mem) (c : ccomplex) (inp : ptr) (n : Z) : res mem mem :=
  guard negb ((n =? 0) || (ccw c =? 0) || (cch c =? 0) || negb (n =? u32 (ccw c * cch c))) with m;
  match ccp c with
  | None => UB
  | Some p => launch2D d sched m (ccw c) (cch c) (copyFromFloatKernel inp p (ccw c) (cch c))
  end.

(** cuda_fft.cu:140-153, get: [None] is the empty image; otherwise a new image of the device
    (type 1) with alignment 1 *)
Definition cget (F : fops) (d : device) (fresh : option Z) (junk : Z -> Z) (sched : list nat) (m : mem)
    (c : ccomplex) : res mem (mem * option image) :=
  match ccp c with
  | None => Ok (m, None)
  | Some p =>
      match fresh with
      | None => Throw m
      | Some b =>
          let m := new_block m b (u32 (ccw c * cch c)) junk in
          do m' <- launch2D d sched m (ccw c) (cch c)
                     (copyToImageKernel F p (b, 0) (u32 (ccw c * cch c)) (ccw c) (cch c));
          Ok (m', Some (mkImage (ccw c) (cch c) 1 1 (ccw c) (Some (b, 0)) 1))
      end
  end.

(** fft_base.h:34-38 *)
Definition equal_size (w1 h1 w2 h2 : Z) : bool := (w1 =? w2) && (h1 =? h2).

(** cuda_fft.cu:210-217; [ew] x [eh] is the size of the executor.  A null pointer cannot be
    used by the kernel. *)
Definition cmultiply (F : fops) (d : device) (sched : list nat) (m : mem) (ew eh : Z) (c1 c2 out : ccomplex)
    : res mem mem :=
  guard negb (negb (equal_size (ccw c1) (cch c1) (ccw c2) (cch c2))
              || negb (equal_size (ccw c1) (cch c1) (ccw out) (cch out))
              || (ccw c1 =? 0) || (cch c2 =? 0)) with m;
  match ccp c1, ccp c2, ccp out with
  | Some p1, Some p2, Some po => launch2D d sched m ew eh (complexMultiplicationKernel F p1 p2 po ew eh)
  | _, _, _ => UB
  end.
