(** Specification vocabulary for Shift and Rotate: interpolation between four pixels, in real
    numbers.  Nothing here refers to the model of the code. *)
From Coq Require Import ZArith Reals.
From Flocq Require Import Core.
From Verif Require Import Base Image Spec.
Open Scope Z_scope.

(** The mean of four neighbouring pixels with weight [f] for the right ones and [g] for the lower
    ones. *)
Definition mix (m : mem) (im : image) (x y : Z) (f g : R) : R :=
  let p a b := IZR (pixel m im a b 0) in
  ((1 - f) * (1 - g) * p x y + f * (1 - g) * p (x + 1)%Z y
   + (1 - f) * g * p x (y + 1)%Z + f * g * p (x + 1)%Z (y + 1)%Z)%R.

(** The value of a gray-scale image at the point ([u],[v]), linear between neighbouring pixels. *)
Definition bilinear (m : mem) (im : image) (u v : R) : R :=
  mix m im (Zfloor u) (Zfloor v) (u - IZR (Zfloor u)) (v - IZR (Zfloor v)).

(** The four pixels around the point lie in the region. *)
Definition surrounded (x0 y0 w h : Z) (u v : R) : Prop :=
  (x0 <= Zfloor u /\ Zfloor u + 1 < x0 + w) /\ (y0 <= Zfloor v /\ Zfloor v + 1 < y0 + h).

(** [r] is the image value at the point rounded to an integer, to within [e]; black where the image is
    not known. *)
Definition sampled (e : R) (m : mem) (im : image) (x0 y0 w h : Z) (u v : R) (r : Z) : Prop :=
  (surrounded x0 y0 w h u v -> 0 <= r <= 255 /\ (Rabs (IZR r - bilinear m im u v) <= / 2 + e)%R) /\
  (~ surrounded x0 y0 w h u v -> r = 0).
