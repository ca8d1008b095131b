(** Complex numbers as pairs of reals, finite sums, the discrete Fourier transform: the
    mathematical notions the properties of src/fft.cpp are stated with.  Definitions only. *)
From Coq Require Import ZArith List Reals.
Import ListNotations.
Open Scope R_scope.

Definition C : Type := (R * R)%type.
Definition C0 : C := (0, 0).
Definition C1 : C := (1, 0).
Definition cadd (a b : C) : C := (fst a + fst b, snd a + snd b).
Definition copp (a : C) : C := (- fst a, - snd a).
Definition csub (a b : C) : C := (fst a - fst b, snd a - snd b).
Definition cmul (a b : C) : C := (fst a * fst b - snd a * snd b, fst a * snd b + snd a * fst b).
Definition real (x : R) : C := (x, 0).

(** e to the power i * t *)
Definition cis (t : R) : C := (cos t, sin t).

(** sum of f over a list *)
Definition csum {T : Type} (l : list T) (f : T -> C) : C := fold_right (fun x s => cadd (f x) s) C0 l.

(** 0, 1, ..., n - 1 *)
Definition upto (n : Z) : list Z := map Z.of_nat (seq 0 (Z.to_nat n)).

(** The discrete Fourier transform of the n numbers x, not normalised:
    sum over s of x(s) * e^(-+ 2 pi i s t / n). *)
Definition angle (inverse : bool) (n s t : Z) : R := (if inverse then 1 else -1) * (2 * PI * IZR (s * t) / IZR n).
Definition dft (inverse : bool) (n : Z) (x : Z -> C) (t : Z) : C :=
  csum (upto n) (fun s => cmul (x s) (cis (angle inverse n s t))).

(** The pairs (r, s) with 0 <= r < w and 0 <= s < h *)
Definition grid (w h : Z) : list (Z * Z) := list_prod (upto w) (upto h).

(** Circular convolution of two functions on the grid *)
Definition convolution (w h : Z) (f g : Z -> Z -> C) (p q : Z) : C :=
  csum (grid w h) (fun a => cmul (f (fst a) (snd a)) (g ((p - fst a) mod w)%Z ((q - snd a) mod h)%Z)).

(** The two-dimensional transform *)
Definition dft2 (inverse : bool) (w h : Z) (f : Z -> Z -> C) (i t : Z) : C :=
  csum (grid w h) (fun a => cmul (f (fst a) (snd a))
    (cmul (cis (angle inverse w (fst a) i)) (cis (angle inverse h (snd a) t)))).

(** Circular convolution of integers *)
Definition zsum {T : Type} (l : list T) (f : T -> Z) : Z := fold_right (fun x s => (f x + s)%Z) 0%Z l.
Definition zconv (w h : Z) (f g : Z -> Z -> Z) (p q : Z) : Z :=
  zsum (grid w h) (fun a => (f (fst a) (snd a) * g ((p - fst a) mod w) ((q - snd a) mod h))%Z).
