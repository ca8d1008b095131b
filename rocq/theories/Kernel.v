(** Model of GetGaussianKernel, src/filtering.cpp:353-396.  Definitions only.

    The number type is an argument; the code uses float ([ieee FLOAT]).  [exp] is expf of the C
    library, [pi] the constant of line 362. *)
From Coq Require Import ZArith List Bool.
From Verif Require Import Base Image ImgFun Arith Warp.
Import ListNotations.
Open Scope Z_scope.

Section KERNEL.
Context (A : arith) (exp : carrier A -> carrier A) (pi : carrier A).
Notation vec := (arr (carrier A)).

(** filtering.cpp:355, the condition for which nothing is thrown *)
Definition kernel_args (w h k : Z) (sigma : carrier A) : bool :=
  negb ((w <? 3) || (h <? 3) || (k =? 0) || (w <? u32 (u32 (k * 2) + 1)) || (h <? u32 (u32 (k * 2) + 1))
        || alt A sigma (aZ A 0)).

(** filtering.cpp:367 and 385: the first element of the kernel.  Pointers into the vector are
    pointers into block 0; the element they point to is checked when it is used. *)
Definition kernel_start (w h k : Z) : ptr := (0, u32 (u32 (h / 2 - k) * w) + w / 2 - k).

(** filtering.cpp:378: the value at the distance whose square is [d2] *)
Definition kernel_value (sigma : carrier A) (d2 : Z) : carrier A :=
  let doubleSigma := amul A sigma (aZ A 2) in
  let doubleSigmaPiInv := adiv A (aZ A 1) (amul A doubleSigma pi) in
  amul A doubleSigmaPiInv (exp (adiv A (aopp A (aZ A d2)) doubleSigma)).

(** filtering.cpp:377-380; the state is posX, the vector and the sum *)
Definition kernel_row (w k : Z) (sigma : carrier A) (y : ptr) (posY2 : Z) (s : vec * carrier A)
    : res vec (vec * carrier A) :=
  let t := u32 (u32 (2 * k) + 1) in
  do posX <- s32 (- to_s32 k);
  do r <- walk t [y] [1] (padd y t)
            (fun cs r =>
               let '(posX, (f, sum)) := r in
               do a <- s32 (posX * posX);
               do d2 <- s32 (a + posY2);
               let v := kernel_value sigma d2 in
               do f <- wr f (snd (c0 cs)) v;
               do posX <- s32 (posX + 1);
               Ok (posX, (f, aadd A sum v))) (posX, s);
  Ok (snd r).

(** filtering.cpp:372-381 *)
Definition kernel_fill (w h k : Z) (sigma : carrier A) (f : vec) : res vec (vec * carrier A) :=
  let t := u32 (u32 (2 * k) + 1) in
  let y := kernel_start w h k in
  do posY <- s32 (- to_s32 k);
  do r <- walk t [y] [w] (padd y (u32 (t * w)))
            (fun cs r =>
               let '(posY, s) := r in
               do posY2 <- s32 (posY * posY);
               do s <- kernel_row w k sigma (c0 cs) posY2 s;
               do posY <- s32 (posY + 1);
               Ok (posY, s)) (posY, (f, aZ A 0));
  Ok (snd r).

(** filtering.cpp:385-394.  posX and posY are counted but not used. *)
Definition kernel_scale (w h k : Z) (normalization : carrier A) (f : vec) : res vec vec :=
  let t := u32 (u32 (2 * k) + 1) in
  let y := kernel_start w h k in
  walk t [y] [w] (padd y (u32 (t * w)))
    (fun cs f =>
       walk t cs [1] (padd (c0 cs) t)
         (fun cs f =>
            do v <- rd f (snd (c0 cs));
            wr f (snd (c0 cs)) (amul A v normalization)) f) f.

(** filtering.cpp:353-396.  [filter] is the vector of the caller, left as it is by a call that
    throws. *)
Definition GetGaussianKernel (filter : vec) (w h k : Z) (sigma : carrier A) : res vec vec :=
  guard kernel_args w h k sigma with filter;
  do s <- kernel_fill w h k sigma (mkArr (u32 (w * h)) (fun _ => aZ A 0));
  kernel_scale w h k (adiv A (aZ A 1) (snd s)) (fst s).

End KERNEL.
