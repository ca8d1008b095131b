(** Number types of the template functions in src/math, as a record of operations: the two
    IEEE types and, for the algebraic properties, the real numbers.  Arrays of numbers.
    Definitions only. *)
From Coq Require Import ZArith List Bool Reals.
From Verif Require Import Base Double Edge Filter.
From Coq Require Import Floats.SpecFloat.
Import ListNotations.
Open Scope Z_scope.

Record arith := mkArith {
  carrier : Type;
  aZ : Z -> carrier;                               (* an integer converted to the type *)
  aadd : carrier -> carrier -> carrier;
  asub : carrier -> carrier -> carrier;
  amul : carrier -> carrier -> carrier;
  adiv : carrier -> carrier -> carrier;
  aopp : carrier -> carrier;
  aabs : carrier -> carrier;
  alt : carrier -> carrier -> bool                 (* a < b *)
}.

Definition ieee (T : ftype) : arith :=
  mkArith num (tofZ T) (tadd T) (tsub T) (tmul T) (tdiv T) SFopp SFabs SFltb.

Definition Rltb (x y : R) : bool := if Rlt_dec x y then true else false.
Definition exact : arith := mkArith R IZR Rplus Rminus Rmult Rdiv Ropp Rabs Rltb.

(** size_t arithmetic *)
Definition W64 : Z := 18446744073709551616.
Definition u64 (z : Z) : Z := z mod W64.

(** std::vector of numbers with its length; v[i] outside it is undefined. *)
Record arr (A : Type) := mkArr { alen : Z; aget : Z -> A }.
Arguments mkArr {A} alen aget.
Arguments alen {A} a.
Arguments aget {A} a.
Definition rd {E A} (v : arr A) (i : Z) : res E A :=
  if (0 <=? i) && (i <? alen v) then Ok (aget v i) else UB.
Definition aset {A} (v : arr A) (i : Z) (x : A) : arr A :=
  mkArr (alen v) (fun j => if j =? i then x else aget v j).
Definition wr {E A} (v : arr A) (i : Z) (x : A) : res E (arr A) :=
  if (0 <=? i) && (i <? alen v) then Ok (aset v i x) else UB.
(** std::swap( v[i], v[j] ) *)
Definition swap {E A} (v : arr A) (i j : Z) : res E (arr A) :=
  do x <- rd v i; do y <- rd v j; do v <- wr v i y; wr v j x.
(** the same for a vector given as a list *)
Definition lrd {E A} (l : list A) (i : Z) : res E A :=
  if 0 <=? i then match nth_error l (Z.to_nat i) with Some x => Ok x | None => UB end else UB.
