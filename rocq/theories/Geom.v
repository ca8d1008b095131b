(** src/math/math_base.h and .cpp: comparison of numbers, angles, points and lines.
    Definitions only. *)
From Coq Require Import ZArith List Bool Reals.
From Verif Require Import Base Double Edge Filter Arith.
From Coq Require Import Floats.SpecFloat.
Import ListNotations.
Open Scope Z_scope.

(** What the templates take from elsewhere: the C library and pvmath::isEqual with two and
    three arguments, the third being 10 wherever the code passes one (lines 227 and 240). *)
Record geom_lib (A : arith) := mkGeom {
  gsqrt : carrier A -> carrier A;
  gcos : carrier A -> carrier A;
  gsin : carrier A -> carrier A;
  gatan2 : carrier A -> carrier A -> carrier A;
  gequal : carrier A -> carrier A -> bool;
  gequal10 : carrier A -> carrier A -> bool
}.
Arguments mkGeom {A}.
Arguments gsqrt {A}.
Arguments gcos {A}.
Arguments gsin {A}.
Arguments gatan2 {A}.
Arguments gequal {A}.
Arguments gequal10 {A}.

(** math_base.h:29-30: 1e-9, and 1e-5f stored in a double *)
Definition epsilonDouble : num := S754_finite false 4835703278458517 (-82).
Definition epsilonFloat : num := S754_finite false 5902957954465792 (-69).
Definition epsilon (T : ftype) : num := if fst T =? 53 then epsilonDouble else epsilonFloat.
(** math_base.cpp:26-36: the difference is computed in the type and compared as a double *)
Definition isEqual (T : ftype) (value1 value2 : num) : bool :=
  SFltb (tcast DOUBLE (SFabs (tsub T value1 value2))) (epsilon T).
(** math_base.cpp:38-48 *)
Definition isEqualBy (T : ftype) (value1 value2 epsilonMultiplier : num) : bool :=
  SFltb (tcast DOUBLE (SFabs (tsub T value1 value2))) (dmul (epsilon T) (tcast DOUBLE epsilonMultiplier)).
(** math_base.cpp:50-58; pi is acos( -1 ), math_base.h:28 *)
Definition toRadians (pi angleDegree : num) : num := ddiv (dmul angleDegree pi) (dofZ 180).
Definition toDegrees (pi angleRadians : num) : num := ddiv (dmul angleRadians (dofZ 180)) pi.

Definition ieee_geom (T : ftype) (cos sin : num -> num) (atan2 : num -> num -> num) : geom_lib (ieee T) :=
  @mkGeom (ieee T) (tsqrt T) cos sin atan2 (isEqual T) (fun a b => isEqualBy T a b (tofZ T 10)).

(** In exact arithmetic; [eps] is the tolerance. *)
Definition exact_equal (eps a b : R) : bool := Rltb (Rabs (a - b)) eps.
Definition exact_geom (eps : R) (atan2 : R -> R -> R) : geom_lib exact :=
  @mkGeom exact sqrt cos sin atan2 (exact_equal eps) (exact_equal (eps * 10)%R).

Section GEOM.
Variable A : arith.
Variable L : geom_lib A.
Notation num := (carrier A).

(** lines 62-115, PointBase2D *)
Record point2 := P2 { px2 : num; py2 : num }.
Definition eq2 (p q : point2) : bool := gequal L (px2 p) (px2 q) && gequal L (py2 p) (py2 q).
Definition ne2 (p q : point2) : bool := negb (eq2 p q).
Definition add2 (p q : point2) : point2 := P2 (aadd A (px2 p) (px2 q)) (aadd A (py2 p) (py2 q)).
Definition sub2 (p q : point2) : point2 := P2 (asub A (px2 p) (px2 q)) (asub A (py2 p) (py2 q)).
(** lines 108-111 and 117-121; [value] already converted to the type *)
Definition scale2 (value : num) (p : point2) : point2 := P2 (amul A value (px2 p)) (amul A value (py2 p)).

(** lines 123-165, PointBase3D.  The class declares no operator!=: the one of its base class
    is called, with the base parts of both points. *)
Record point3 := P3 { base3 : point2; pz3 : num }.
Definition eq3 (p q : point3) : bool := eq2 (base3 p) (base3 q) && gequal L (pz3 p) (pz3 q).
Definition ne3 (p q : point3) : bool := ne2 (base3 p) (base3 q).
Definition add3 (p q : point3) : point3 := P3 (add2 (base3 p) (base3 q)) (aadd A (pz3 p) (pz3 q)).
Definition sub3 (p q : point3) : point3 := P3 (sub2 (base3 p) (base3 q)) (asub A (pz3 p) (pz3 q)).

(** lines 167-322, LineBase2D.  operator== (line 197) calls a function [parallel] that does not
    exist, a program using it does not compile; it is left out. *)
Record line := mkLine { lpos : point2; ldir : point2 }.
(** line 171, with the initialisers of lines 113-114 *)
Definition line_default : line := mkLine (P2 (aZ A 0) (aZ A 0)) (P2 (aZ A 0) (aZ A 0)).
(** lines 173-185 *)
Definition line_through (start end_ : point2) : line :=
  mkLine start
    (if eq2 start end_ then P2 (aZ A 1) (aZ A 0)
     else
       let xDiff := asub A (px2 end_) (px2 start) in
       let yDiff := asub A (py2 end_) (py2 start) in
       let length := gsqrt L (aadd A (amul A xDiff xDiff) (amul A yDiff yDiff)) in
       P2 (adiv A xDiff length) (adiv A yDiff length)).
(** lines 188-193 *)
Definition line_at (position : point2) (angle : num) : line :=
  mkLine position (P2 (gcos L angle) (gsin L angle)).
(** lines 212-215 *)
Definition angle (l : line) : num := gatan2 L (py2 (ldir l)) (px2 (ldir l)).
(** lines 201-204, operator+ *)
Definition line_plus (l : line) (offset : point2) : line := line_at (add2 (lpos l) offset) (angle l).
(** lines 206-210, operator+= *)
Definition line_add (l : line) (offset : point2) : line := mkLine (add2 (lpos l) offset) (ldir l).
(** lines 226 and 239 *)
Definition cross (l m : line) : num :=
  asub A (amul A (py2 (ldir l)) (px2 (ldir m))) (amul A (px2 (ldir l)) (py2 (ldir m))).
(** lines 222-235; [None] is false, the point is not written then *)
Definition intersection (l m : line) : option point2 :=
  let denominator := cross l m in
  if gequal10 L denominator (aZ A 0) then None
  else
    let offset := sub2 (lpos l) (lpos m) in
    let na := adiv A (asub A (amul A (py2 (ldir m)) (px2 offset)) (amul A (px2 (ldir m)) (py2 offset))) denominator in
    Some (add2 (lpos l) (P2 (amul A (px2 (ldir l)) na) (amul A (py2 (ldir l)) na))).
(** lines 237-246 *)
Definition isParallel (l m : line) : bool := gequal10 L (cross l m) (aZ A 0).
Definition isIntersect (l m : line) : bool := negb (isParallel l m).
(** lines 248-257 *)
Definition distance (l : line) (p : point2) : num :=
  let d := aadd A (amul A (py2 (ldir l)) (asub A (px2 p) (px2 (lpos l))))
                  (amul A (px2 (ldir l)) (asub A (py2 (lpos l)) (py2 p))) in
  if alt A d (aZ A 0) then aopp A d else d.
(** lines 259-264 *)
Definition projection (l : line) (p : point2) : point2 :=
  let dotProduct := aadd A (amul A (px2 (ldir l)) (asub A (px2 p) (px2 (lpos l))))
                           (amul A (py2 (ldir l)) (asub A (py2 p) (py2 (lpos l)))) in
  add2 (lpos l) (P2 (amul A (px2 (ldir l)) dotProduct) (amul A (py2 (ldir l)) dotProduct)).
(** lines 266-269 *)
Definition opposite (l : line) (p : point2) : point2 := sub2 (scale2 (aZ A 2) (projection l p)) p.

(** lines 277-291: sumX, sumY, sumXX, sumYY, sumXY *)
Definition sums : Type := (num * num * num * num * num)%type.
Definition sum_step (s : sums) (p : point2) : sums :=
  let '(sumX, sumY, sumXX, sumYY, sumXY) := s in
  let x := px2 p in let y := py2 p in
  (aadd A sumX x, aadd A sumY y, aadd A sumXX (amul A x x), aadd A sumYY (amul A y y), aadd A sumXY (amul A x y)).
(** lines 271-317 *)
Definition bestFittingLine (points : list point2) : line :=
  if Z.of_nat (length points) <? 2 then line_default
  else
    let z := aZ A 0 in
    let '(sumX, sumY, sumXX, sumYY, sumXY) := fold_left sum_step points (z, z, z, z, z) in
    let size := aZ A (Z.of_nat (length points)) in
    let sumX := adiv A sumX size in
    let sumY := adiv A sumY size in
    let sumXX := adiv A sumXX size in
    let sumYY := adiv A sumYY size in
    let sumXY := adiv A sumXY size in
    let sigmaX := asub A sumXX (amul A sumX sumX) in
    let sigmaY := asub A sumYY (amul A sumY sumY) in
    let direction :=
      if alt A sigmaY sigmaX
      then P2 (asub A sumXX (amul A sumX sumX)) (asub A sumXY (amul A sumX sumY))
      else P2 (asub A sumXY (amul A sumX sumY)) (asub A sumYY (amul A sumY sumY)) in
    line_at (P2 sumX sumY) (gatan2 L (py2 direction) (px2 direction)).
End GEOM.
Arguments P2 {A}.
Arguments px2 {A}.
Arguments py2 {A}.
Arguments P3 {A}.
Arguments base3 {A}.
Arguments pz3 {A}.
Arguments mkLine {A}.
Arguments lpos {A}.
Arguments ldir {A}.
