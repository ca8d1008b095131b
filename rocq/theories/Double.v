(** IEEE 754 binary64 arithmetic (the C++ type double) with rounding to nearest even, taken
    from the specification in Coq's standard library.  Definitions only.

    Assumptions of the model: every operation is rounded to binary64 (no x87 excess
    precision, no fused multiply-add) and the rounding mode is the default one. *)
From Coq Require Import ZArith Bool Floats.SpecFloat.
From Verif Require Import Base.
Open Scope Z_scope.

Definition double : Type := spec_float.
Definition dadd : double -> double -> double := SFadd 53 1024.
Definition dsub : double -> double -> double := SFsub 53 1024.
Definition dmul : double -> double -> double := SFmul 53 1024.
Definition ddiv : double -> double -> double := SFdiv 53 1024.
Definition dopp : double -> double := SFopp.
Definition dabs : double -> double := SFabs.
Definition dlt : double -> double -> bool := SFltb.
Definition dle : double -> double -> bool := SFleb.

(** Conversion from an integer type. *)
Definition dofZ (z : Z) : double := binary_normalize 53 1024 z 0 false.

(** The literal 0.5 *)
Definition dhalf : double := S754_finite false 4503599627370496 (-53).

(** Truncation towards zero; [None] for infinities and NaN. *)
Definition dtrunc (x : double) : option Z :=
  match x with
  | S754_zero _ => Some 0
  | S754_finite s m e =>
      let a := if 0 <=? e then Zpos m * 2 ^ e else Zpos m / 2 ^ (- e) in
      Some (if s then - a else a)
  | _ => None
  end.

(** static_cast<uint8_t>( x ), static_cast<uint32_t>( x ): undefined when the truncated value
    does not fit; [junk] says what happens then (see the users of this definition). *)
Definition cast_to {E} (bound : Z) (junk : double -> res E Z) (x : double) : res E Z :=
  match dtrunc x with
  | Some z => if (0 <=? z) && (z <? bound) then Ok z else junk x
  | None => junk x
  end.

(** The C++ standard's answer. *)
Definition undefined {E} (x : double) : res E Z := UB.
