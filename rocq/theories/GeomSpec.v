(** What points, lines and distances are, for the theorems about src/math/math_base.h.
    Plain analytic geometry over the real numbers, independent of the code. *)
From Coq Require Import Reals List.
From Verif Require Import Base Arith Geom.
Open Scope R_scope.

Definition pt : Type := point2 exact.
Definition X (p : pt) : R := px2 p.
Definition Y (p : pt) : R := py2 p.
Definition xy (x y : R) : pt := @P2 exact x y.

Definition dist (p q : pt) : R := sqrt ((X p - X q) * (X p - X q) + (Y p - Y q) * (Y p - Y q)).
(** the straight line through two points *)
Definition join (a b q : pt) : Prop :=
  exists t, X q = X a + t * (X b - X a) /\ Y q = Y a + t * (Y b - Y a).
(** the straight line through a point at an angle to the x axis *)
Definition ray (a : pt) (theta : R) (q : pt) : Prop :=
  exists t, X q = X a + t * cos theta /\ Y q = Y a + t * sin theta.
(** the set translated by a vector *)
Definition translated (S : pt -> Prop) (v q : pt) : Prop := S (xy (X q - X v) (Y q - Y v)).

(** The object [l] answers geometric questions about the set [S]. *)
Definition measures (l : line exact) (S : pt -> Prop) : Prop :=
  S (lpos l) /\
  forall p,
    (* the projection is a point of the set, [distance] away, and no point is closer *)
    S (projection exact l p) /\
    dist p (projection exact l p) = distance exact l p /\
    (forall q, S q -> distance exact l p <= dist p q) /\
    (* the distance tells the points of the set from the others *)
    (S p <-> distance exact l p = 0) /\
    (* the projection is the middle between a point and its mirror image, and mirroring twice
       gives the point *)
    X (projection exact l p) = (X p + X (opposite exact l p)) / 2 /\
    Y (projection exact l p) = (Y p + Y (opposite exact l p)) / 2 /\
    opposite exact l (opposite exact l p) = p.

(** atan2 of the C library *)
Definition is_atan2 (f : R -> R -> R) : Prop :=
  f 0 0 = 0 /\
  forall y x, x <> 0 \/ y <> 0 ->
    x = sqrt (x * x + y * y) * cos (f y x) /\ y = sqrt (x * x + y * y) * sin (f y x).

(** Sums over a list of points *)
Definition total (f : pt -> R) (l : list pt) : R := fold_right (fun p s => f p + s) 0 l.
Definition mean (f : pt -> R) (l : list pt) : R := total f l / INR (length l).
(** n times the variance *)
Definition spread (f : pt -> R) (l : list pt) : R := total (fun p => (f p - mean f l) * (f p - mean f l)) l.
(** squared errors of the line y = a + b x, and of the line x = a + b y *)
Definition errors_y (l : list pt) (a b : R) : R := total (fun p => (Y p - a - b * X p) * (Y p - a - b * X p)) l.
Definition errors_x (l : list pt) (a b : R) : R := total (fun p => (X p - a - b * Y p) * (X p - a - b * Y p)) l.
(** squared distances of the points *)
Definition errors (m : line exact) (l : list pt) : R := total (fun p => distance exact m p * distance exact m p) l.
