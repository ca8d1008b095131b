(** Model of the one-dimensional transform of kissfft, src/thirdparty/kissfft/kiss_fft.c, in
    the floating-point configuration (no FIXED_POINT, no SIMD, no OpenMP).  Definitions only. *)
From Coq Require Import ZArith List Bool Reals.
From Verif Require Import Base ImgFun Arith Fft.
Import ListNotations.
Open Scope Z_scope.

(** ** Factors *)

(** kiss_fft.c:319-327, while ( n % p ): the next radix that divides n; [fs] is floor_sqrt *)
Fixpoint next_radix (fuel : nat) (fs n p : Z) : res unit Z :=
  match fuel with
  | O => Timeout
  | S f => if n mod p =? 0 then Ok p
           else let p := if p =? 4 then 2 else if p =? 2 then 3 else p + 2 in
                next_radix f fs n (if fs <? p then n else p)
  end.
(** kiss_fft.c:318-331: the pairs written to facbuf *)
Fixpoint factor_loop (fuel : nat) (fs n p : Z) : res unit (list (Z * Z)) :=
  match fuel with
  | O => Timeout
  | S f => do p <- next_radix (fuel_of (n + fs + 4)) fs n p;
           let n := n / p in
           if 1 <? n then (do l <- factor_loop f fs n p; Ok ((p, n) :: l)) else Ok [(p, n)]
  end.
(** kiss_fft.c:311-332 with the array factors[2 * MAXFACTORS] of _kiss_fft_guts.h:22-33;
    floor( sqrt( (double)n ) ) is the integer square root. *)
Definition kf_factor (n : Z) : res unit (list (Z * Z)) :=
  do l <- factor_loop (fuel_of n) (Z.sqrt n) n 4;
  if Z.of_nat (length l) <=? 32 then Ok l else UB.

(** ** Butterflies *)
Section KISS.
Context (A : arith).
Notation cpx := (cpx A).

(** _kiss_fft_guts.h:87-89 C_MUL, 100-104 C_ADD, 106-110 C_SUB, 138 HALF_OF *)
Definition C_MUL (a b : cpx) : cpx :=
  (asub A (amul A (fst a) (fst b)) (amul A (snd a) (snd b)), aadd A (amul A (fst a) (snd b)) (amul A (snd a) (fst b))).
Definition C_ADD (a b : cpx) : cpx := (aadd A (fst a) (fst b), aadd A (snd a) (snd b)).
Definition C_SUB (a b : cpx) : cpx := (asub A (fst a) (fst b), asub A (snd a) (snd b)).
Definition HALF_OF (x : carrier A) : carrier A := amul A x (adiv A (aZ A 1) (aZ A 2)).

(** struct kiss_fft_state: nfft, inverse and the table of nfft twiddle factors *)
Context (N : Z) (inverse : bool) (tw : arr cpx).

(** Fout is the offset [o] in the buffer [fo]; the pointer is advanced with the loop counter. *)

(** kiss_fft.c:21-42 *)
Definition bfly2 (fo : arr cpx) (o fstride m : Z) : res unit (arr cpx) :=
  iterM (Z.to_nat m) 0
    (fun u fo =>
       do f0 <- rd fo (o + u); do f1 <- rd fo (o + u + m);
       do w <- rd tw (u * fstride);
       let t := C_MUL f1 w in
       do fo <- wr fo (o + u + m) (C_SUB f0 t);
       wr fo (o + u) (C_ADD f0 t)) fo.

(** kiss_fft.c:92-134 *)
Definition bfly3 (fo : arr cpx) (o fstride m : Z) : res unit (arr cpx) :=
  do epi3 <- rd tw (fstride * m);
  iterM (Z.to_nat m) 0
    (fun u fo =>
       do f0 <- rd fo (o + u); do f1 <- rd fo (o + u + m); do f2 <- rd fo (o + u + 2 * m);
       do w1 <- rd tw (u * fstride); do w2 <- rd tw (u * (fstride * 2));
       let s1 := C_MUL f1 w1 in
       let s2 := C_MUL f2 w2 in
       let s3 := C_ADD s1 s2 in
       let s0 := C_SUB s1 s2 in
       let g1 := (asub A (fst f0) (HALF_OF (fst s3)), asub A (snd f0) (HALF_OF (snd s3))) in
       let s0 := (amul A (fst s0) (snd epi3), amul A (snd s0) (snd epi3)) in
       do fo <- wr fo (o + u) (C_ADD f0 s3);
       do fo <- wr fo (o + u + 2 * m) (aadd A (fst g1) (snd s0), asub A (snd g1) (fst s0));
       wr fo (o + u + m) (asub A (fst g1) (snd s0), aadd A (snd g1) (fst s0))) fo.

(** kiss_fft.c:44-90 *)
Definition bfly4 (fo : arr cpx) (o fstride m : Z) : res unit (arr cpx) :=
  iterM (Z.to_nat m) 0
    (fun u fo =>
       do f0 <- rd fo (o + u); do f1 <- rd fo (o + u + m); do f2 <- rd fo (o + u + 2 * m); do f3 <- rd fo (o + u + 3 * m);
       do w1 <- rd tw (u * fstride); do w2 <- rd tw (u * (fstride * 2)); do w3 <- rd tw (u * (fstride * 3));
       let s0 := C_MUL f1 w1 in
       let s1 := C_MUL f2 w2 in
       let s2 := C_MUL f3 w3 in
       let s5 := C_SUB f0 s1 in
       let f0 := C_ADD f0 s1 in
       let s3 := C_ADD s0 s2 in
       let s4 := C_SUB s0 s2 in
       do fo <- wr fo (o + u + 2 * m) (C_SUB f0 s3);
       do fo <- wr fo (o + u) (C_ADD f0 s3);
       if inverse then
         do fo <- wr fo (o + u + m) (asub A (fst s5) (snd s4), aadd A (snd s5) (fst s4));
         wr fo (o + u + 3 * m) (aadd A (fst s5) (snd s4), asub A (snd s5) (fst s4))
       else
         do fo <- wr fo (o + u + m) (aadd A (fst s5) (snd s4), asub A (snd s5) (fst s4));
         wr fo (o + u + 3 * m) (asub A (fst s5) (snd s4), aadd A (snd s5) (fst s4))) fo.

(** kiss_fft.c:136-194 *)
Definition bfly5 (fo : arr cpx) (o fstride m : Z) : res unit (arr cpx) :=
  do ya <- rd tw (fstride * m);
  do yb <- rd tw (fstride * 2 * m);
  iterM (Z.to_nat m) 0
    (fun u fo =>
       do f0 <- rd fo (o + u); do f1 <- rd fo (o + u + m); do f2 <- rd fo (o + u + 2 * m);
       do f3 <- rd fo (o + u + 3 * m); do f4 <- rd fo (o + u + 4 * m);
       do w1 <- rd tw (u * fstride); do w2 <- rd tw (2 * u * fstride);
       do w3 <- rd tw (3 * u * fstride); do w4 <- rd tw (4 * u * fstride);
       let s1 := C_MUL f1 w1 in
       let s2 := C_MUL f2 w2 in
       let s3 := C_MUL f3 w3 in
       let s4 := C_MUL f4 w4 in
       let s7 := C_ADD s1 s4 in
       let s10 := C_SUB s1 s4 in
       let s8 := C_ADD s2 s3 in
       let s9 := C_SUB s2 s3 in
       let s5 := (aadd A (aadd A (fst f0) (amul A (fst s7) (fst ya))) (amul A (fst s8) (fst yb)),
                  aadd A (aadd A (snd f0) (amul A (snd s7) (fst ya))) (amul A (snd s8) (fst yb))) in
       let s6 := (aadd A (amul A (snd s10) (snd ya)) (amul A (snd s9) (snd yb)),
                  asub A (aopp A (amul A (fst s10) (snd ya))) (amul A (fst s9) (snd yb))) in
       let s11 := (aadd A (aadd A (fst f0) (amul A (fst s7) (fst yb))) (amul A (fst s8) (fst ya)),
                   aadd A (aadd A (snd f0) (amul A (snd s7) (fst yb))) (amul A (snd s8) (fst ya))) in
       let s12 := (aadd A (aopp A (amul A (snd s10) (snd yb))) (amul A (snd s9) (snd ya)),
                   asub A (amul A (fst s10) (snd yb)) (amul A (fst s9) (snd ya))) in
       do fo <- wr fo (o + u) (aadd A (fst f0) (aadd A (fst s7) (fst s8)), aadd A (snd f0) (aadd A (snd s7) (snd s8)));
       do fo <- wr fo (o + u + m) (C_SUB s5 s6);
       do fo <- wr fo (o + u + 4 * m) (C_ADD s5 s6);
       do fo <- wr fo (o + u + 2 * m) (C_ADD s11 s12);
       wr fo (o + u + 3 * m) (C_SUB s11 s12)) fo.

(** kiss_fft.c:212-218: the p elements copied to scratch *)
Definition gather_scratch (fo : arr cpx) (o u m p : Z) : res unit (arr cpx) :=
  iterM (Z.to_nat p) 0 (fun q1 sc => do f <- rd fo (o + (u + q1 * m)); wr sc q1 f)
    (mkArr p (fun _ => (aZ A 0, aZ A 0))).
(** kiss_fft.c:224-229; twidx is an int *)
Definition sum_scratch (sc : arr cpx) (fstride k p : Z) (f : cpx) : res unit (Z * cpx) :=
  iterM (Z.to_nat (p - 1)) 1
    (fun q s =>
       let twidx := fst s + fstride * k in
       if 2147483647 <? twidx then UB else
       let twidx := if N <=? twidx then twidx - N else twidx in
       do x <- rd sc q;
       do w <- rd tw twidx;
       Ok (twidx, C_ADD (snd s) (C_MUL x w))) (0, f).
(** kiss_fft.c:197-234 *)
Definition bfly_generic (fo : arr cpx) (o fstride m p : Z) : res unit (arr cpx) :=
  iterM (Z.to_nat m) 0
    (fun u fo =>
       do sc <- gather_scratch fo o u m p;
       iterM (Z.to_nat p) 0
         (fun q1 fo =>
            let k := u + q1 * m in
            do f <- rd sc 0;
            do s <- sum_scratch sc fstride k p f;
            wr fo (o + k) (snd s)) fo) fo.

(** kiss_fft.c:297-304 *)
Definition butterfly (fo : arr cpx) (o fstride m p : Z) : res unit (arr cpx) :=
  if p =? 2 then bfly2 fo o fstride m
  else if p =? 3 then bfly3 fo o fstride m
  else if p =? 4 then bfly4 fo o fstride m
  else if p =? 5 then bfly5 fo o fstride m
  else bfly_generic fo o fstride m p.

(** kiss_fft.c:236-305.  [x i] is the input element f[i * in_stride] counted from the start of
    the input of the whole transform; [base] is the position of f.  The caller has checked that
    the input is long enough. *)
Fixpoint kf_work (factors : list (Z * Z)) (x : Z -> cpx) (base fstride : Z) (fo : arr cpx) (o : Z) : res unit (arr cpx) :=
  match factors with
  | [] => UB
  | (p, m) :: rest =>
      do fo <- (if m =? 1
                then iterM (Z.to_nat p) 0 (fun k fo => wr fo (o + k) (x (base + k * fstride))) fo
                else iterM (Z.to_nat p) 0 (fun k fo => kf_work rest x (base + k * fstride) (fstride * p) fo (o + k * m)) fo);
      butterfly fo o fstride m p
  end.
End KISS.

(** kiss_fft.c:341-370 and 373-387, for separate buffers: plan and transform of the n numbers
    x; [twiddle inverse n i] is the factor of kiss_fft.c:359-365 and [junk] what the output
    held before. *)
Definition kiss_fft (A : arith) (twiddle : bool -> Z -> Z -> cpx A) (inverse : bool) (n : Z)
    (x : Z -> cpx A) (junk : Z -> cpx A) : res unit (arr (cpx A)) :=
  do l <- kf_factor n;
  kf_work A n inverse (mkArr n (twiddle inverse n)) l x 0 1 (mkArr n junk) 0.

(** The transform as a function of the input, for [Fft.stage]; when the call does not return
    normally the value is 0. *)
Definition kiss_fft1 (A : arith) (twiddle : bool -> Z -> Z -> cpx A) (inverse : bool) (n : Z) (x : Z -> cpx A) (t : Z) : cpx A :=
  match kiss_fft A twiddle inverse n x (fun _ => (aZ A 0, aZ A 0)) with
  | Ok o => aget o t
  | _ => (aZ A 0, aZ A 0)
  end.

(** kiss_fft.c:359-365 in exact arithmetic: the phase is -2 pi i / nfft, its negation for the
    inverse transform. *)
Definition exact_twiddle (inverse : bool) (n i : Z) : cpx exact :=
  let phase := (-2 * PI * IZR i / IZR n)%R in
  let phase := if inverse then (phase * -1)%R else phase in
  (cos phase, sin phase).
