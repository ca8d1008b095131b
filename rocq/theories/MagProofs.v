(** Multiplication, division and square root of Filter.v in terms of real numbers, and the
    table of gradient magnitudes. *)
From Coq Require Import ZArith Bool Reals Lia Lra Floats.SpecFloat.
From Flocq Require Import Core IEEE754.BinarySingleNaN.
From Verif Require Import Base BaseProofs Double DoubleProofs Edge NumProofs Filter FilterProofs.
Open Scope Z_scope.

Section FORMAT.
Variables prec emax : Z.
Hypothesis Hprec : 2 <= prec.
Hypothesis Hemax : prec < emax.

#[local] Instance Pp' : FLX.Prec_gt_0 prec := Pp prec Hprec.
#[local] Instance Pe' : Prec_lt_emax prec emax := Pe prec emax Hemax.

Lemma mul_eqT (x y : binary_float prec emax) :
  tmul (prec, emax) (B2SF x) (B2SF y) = B2SF (Bmult mode_NE x y).
Proof.
  destruct x as [sx|sx| |sx mx ex Bx], y as [sy|sy| |sy my ey By]; try reflexivity.
  cbn [B2SF]. unfold tmul, SFmul, Bmult. cbn [fst snd]. rewrite B2SF_SF2B. apply round_aux_eqT.
Qed.

Lemma div_eqT (x y : binary_float prec emax) :
  tdiv (prec, emax) (B2SF x) (B2SF y) = B2SF (Bdiv mode_NE x y).
Proof.
  destruct x as [sx|sx| |sx mx ex Bx], y as [sy|sy| |sy my ey By]; try reflexivity.
  cbn [B2SF]. unfold tdiv, SFdiv, Bdiv. cbn [fst snd]. rewrite B2SF_SF2B.
  destruct (SFdiv_core_binary _ _ _ _ _ _) as [[mz ez] lz]. apply round_aux_eqT.
Qed.

Lemma sqrt_eqT (x : binary_float prec emax) :
  tsqrt (prec, emax) (B2SF x) = B2SF (Bsqrt mode_NE x).
Proof.
  destruct x as [sx|[|]| |[|] mx ex Bx]; try reflexivity.
  cbn [B2SF]. unfold tsqrt, SFsqrt, Bsqrt. cbn [fst snd]. rewrite B2SF_SF2B.
  destruct (SFsqrt_core_binary _ _ _ _) as [[mz ez] lz]. apply round_aux_eqT.
Qed.

Lemma isT_mul x y a b : isT prec emax x a -> isT prec emax y b -> (Rabs (rndT prec emax (a * b)) < bpow radix2 emax)%R ->
  isT prec emax (tmul (prec, emax) x y) (rndT prec emax (a * b)).
Proof.
  intros (bx & <- & Fx & <-) (by_ & <- & Fy & <-) H.
  exists (Bmult mode_NE bx by_). split; [symmetry; apply mul_eqT|].
  pose proof (Bmult_correct prec emax Pp' Pe' mode_NE bx by_) as C.
  rewrite Rlt_bool_true in C by exact H. destruct C as (C1 & C2 & _). rewrite Fx, Fy in C2. auto.
Qed.

Lemma isT_div x y a b : isT prec emax x a -> isT prec emax y b -> b <> 0%R ->
  (Rabs (rndT prec emax (a / b)) < bpow radix2 emax)%R ->
  isT prec emax (tdiv (prec, emax) x y) (rndT prec emax (a / b)).
Proof.
  intros (bx & <- & Fx & <-) (by_ & <- & Fy & <-) N H.
  exists (Bdiv mode_NE bx by_). split; [symmetry; apply div_eqT|].
  pose proof (Bdiv_correct prec emax Pp' Pe' mode_NE bx by_ N) as C.
  rewrite Rlt_bool_true in C by exact H. destruct C as (C1 & C2 & _). rewrite Fx in C2. auto.
Qed.

Lemma isT_sqrt x a : isT prec emax x a -> (0 <= a)%R ->
  isT prec emax (tsqrt (prec, emax) x) (rndT prec emax (sqrt a)).
Proof.
  intros (bx & <- & Fx & <-) H.
  exists (Bsqrt mode_NE bx). split; [symmetry; apply sqrt_eqT|].
  pose proof (Bsqrt_correct prec emax Pp' Pe' mode_NE bx) as (C1 & C2 & _). split; [|exact C1].
  rewrite C2. destruct bx as [s|s| |s mx ex Bx]; try discriminate; [reflexivity|].
  destruct s; [|reflexivity]. exfalso. revert H. cbn [B2R]. apply Rlt_not_le. apply F2R_lt_0. reflexivity.
Qed.

Lemma isT_trunc x a : isT prec emax x a -> dtrunc x = Some (Ztrunc a).
Proof.
  intros (b & <- & F & <-). destruct b as [s|s| |s m e B]; try discriminate.
  - simpl. rewrite Ztrunc_IZR. reflexivity.
  - cbn [B2SF dtrunc B2R]. f_equal. clear B F.
    unfold F2R. cbn [Fnum Fexp].
    destruct (Z.leb_spec 0 e).
    + rewrite <- (IZR_Zpower radix2) by lia. rewrite <- mult_IZR.
      change (Zpower radix2 e) with (2 ^ e). rewrite Ztrunc_IZR. destruct s; simpl cond_Zopp; lia.
    + assert (Hp : 0 < 2 ^ (- e)) by (apply Z.pow_pos_nonneg; lia).
      assert (Hb : bpow radix2 e = (/ IZR (2 ^ (- e)))%R).
      { replace e with (- (- e)) at 1 by lia. rewrite bpow_opp, <- (IZR_Zpower radix2) by lia. reflexivity. }
      rewrite Hb.
      assert (Ht : Ztrunc (IZR (Zpos m) / IZR (2 ^ (- e))) = Zpos m / 2 ^ (- e)).
      { rewrite Ztrunc_floor.
        - apply Zfloor_div. lia.
        - apply Rmult_le_pos; [apply IZR_le; lia|]. left. apply Rinv_0_lt_compat, IZR_lt. exact Hp. }
      destruct s; cbn [cond_Zopp].
      * replace (IZR (- Z.pos m) * / IZR (2 ^ - e))%R with (- (IZR (Zpos m) / IZR (2 ^ - e)))%R
          by (rewrite opp_IZR; unfold Rdiv; ring).
        rewrite Ztrunc_opp, Ht. reflexivity.
      * symmetry. exact Ht.
Qed.
End FORMAT.

(** A number given by its mantissa and exponent. *)
Lemma isF_finite m e : bounded 24 128 m e = true -> isN FLOAT (S754_finite false m e) (IZR (Zpos m) * bpow radix2 e)%R.
Proof. intros H. exists (B754_finite false m e H). repeat split. Qed.

Definition scaled (n i j : Z) : R := (sqrt (IZR (i * i + j * j)) / (IZR n * sqrt 2))%R.

Lemma sqrt2_bounds : (1414213562 / 1000000000 <= sqrt 2 <= 1414213563 / 1000000000)%R.
Proof.
  split.
  - rewrite <- (sqrt_Rsqr (1414213562 / 1000000000)) by lra. apply sqrt_le_1; unfold Rsqr; lra.
  - rewrite <- (sqrt_Rsqr (1414213563 / 1000000000)) by lra. apply sqrt_le_1; unfold Rsqr; lra.
Qed.

Lemma multiplier_near n : n = 3 \/ n = 4 ->
  exists c, isN FLOAT (multiplier n) c /\ (0 < c)%R /\ (Rabs (c - / (IZR n * sqrt 2)) <= bpow radix2 (-24))%R.
Proof.
  intros Hn. pose proof sqrt2_bounds as [B1 B2].
  assert (I : (/ sqrt 2 = sqrt 2 / 2)%R).
  { rewrite <- (sqrt_sqrt 2) at 3 by lra. field. lra. }
  assert (P : (bpow radix2 (-26) = / 67108864)%R) by reflexivity.
  assert (P2 : (bpow radix2 (-24) = / 16777216)%R) by reflexivity.
  destruct Hn as [-> | ->].
  - replace (multiplier 3) with (S754_finite false 15817712 (-26)) by (vm_compute; reflexivity).
    exists (IZR 15817712 * bpow radix2 (-26))%R. split; [apply isF_finite; reflexivity|].
    rewrite Rinv_mult, I, P, P2. split; [lra|]. apply Rabs_le. lra.
  - replace (multiplier 4) with (S754_finite false 11863283 (-26)) by (vm_compute; reflexivity).
    exists (IZR 11863283 * bpow radix2 (-26))%R. split; [apply isF_finite; reflexivity|].
    rewrite Rinv_mult, I, P, P2. split; [lra|]. apply Rabs_le. lra.
Qed.

Lemma magnitude_near n i j : n = 3 \/ n = 4 -> 0 <= i <= 255 * n -> 0 <= j <= 255 * n ->
  exists r, isN FLOAT (magnitude n i j) r /\ (0 <= r < 256)%R /\
    (Rabs (r - (scaled n i j + / 2)) <= bpow radix2 (-12))%R.
Proof.
  intros Hn Hi Hj. destruct (multiplier_near n Hn) as (c & Hc & Cp & Hce).
  assert (HT : real_type FLOAT) by (left; reflexivity).
  pose proof sqrt2_bounds as [B1 B2].
  assert (Hn' : (3 <= IZR n <= 4)%R) by (destruct Hn as [-> | ->]; lra).
  assert (Hii : 0 <= i * i <= 65025 * (n * n)) by nia.
  assert (Hjj : 0 <= j * j <= 65025 * (n * n)) by nia.
  assert (Hnn : n * n <= 16) by nia.
  unfold magnitude. rewrite (u32_small (i * i)) by (unfold W32; lia). rewrite (u32_small (j * j)) by (unfold W32; lia).
  rewrite (u32_small (i * i + j * j)) by (unfold W32; lia).
  set (N := i * i + j * j) in *.
  assert (HN : 0 <= N <= 2 * 65025 * (n * n)) by (subst N; lia).
  assert (R0 : isN FLOAT (tofZ FLOAT N) (IZR N)).
  { rewrite <- (rndN_IZR FLOAT N HT) by (simpl; lia). apply isT_ofZ; simpl; lia. }
  assert (RN : (0 <= IZR N)%R) by (apply IZR_le; lia).
  pose proof (isT_sqrt 24 128 ltac:(lia) ltac:(lia) _ _ R0 RN) as R1.
  change (tsqrt (24, 128)) with (tsqrt FLOAT) in R1. change (rndT 24 128) with (rndN FLOAT) in R1.
  set (q := sqrt (IZR N)) in *.
  assert (Q0 : (0 <= q)%R) by apply sqrt_pos.
  assert (QN : (q <= 255 * IZR n * sqrt 2)%R).
  { unfold q. apply Rsqr_incr_0_var; [|apply Rmult_le_pos; [lra|apply sqrt_pos]].
    rewrite Rsqr_sqrt by exact RN. rewrite Rsqr_mult, Rsqr_sqrt by lra. unfold Rsqr.
    replace (255 * IZR n * (255 * IZR n) * 2)%R with (IZR (2 * 65025 * (n * n))) by (rewrite !mult_IZR; ring).
    apply IZR_le. lia. }
  assert (Q1 : (q <= 1443)%R) by nra.
  set (s := rndN FLOAT q) in *.
  assert (S1 : (Rabs (s - q) <= bpow radix2 (-13))%R).
  { apply (rndN_error FLOAT q 11 HT); [lia|]. rewrite Rabs_pos_eq by exact Q0. change (bpow radix2 11) with 2048%R. lra. }
  assert (S0 : (0 <= s)%R).
  { rewrite <- (rndN_IZR FLOAT 0 HT) by (simpl; lia). apply rndN_le; auto. }
  change (bpow radix2 (-13)) with (/ 8192)%R in S1. change (bpow radix2 (-24)) with (/ 16777216)%R in Hce.
  apply Rabs_le_inv in S1. apply Rabs_le_inv in Hce.
  set (d := (/ (IZR n * sqrt 2))%R) in *.
  assert (Dd : (d * (IZR n * sqrt 2) = 1)%R) by (apply Rinv_l; nra).
  assert (D1 : (0 < d <= / 4)%R).
  { split; [apply Rinv_0_lt_compat; nra|]. unfold d. apply Rinv_le_contravar; nra. }
  assert (Ex : scaled n i j = (q * d)%R) by reflexivity.
  assert (X1 : (0 <= q * d <= 255)%R).
  { split; [apply Rmult_le_pos; lra|]. replace 255%R with (255 * (d * (IZR n * sqrt 2)))%R by (rewrite Dd; ring). nra. }
  assert (M1 : (- (/ 8192) <= s * c - q * d <= / 8192)%R).
  { replace (s * c - q * d)%R with ((s - q) * c + q * (c - d))%R by ring.
    assert (C1 : (0 < c <= 1)%R) by lra.
    assert (A : (- (/ 8192) * (26 / 100) <= (s - q) * c <= / 8192 * (26 / 100))%R).
    { assert (C2 : (c <= 26 / 100)%R) by lra. split; nra. }
    assert (B : (- (1443 / 16777216) <= q * (c - d) <= 1443 / 16777216)%R) by (split; nra).
    lra. }
  set (p := rndN FLOAT (s * c)).
  assert (P1 : (Rabs (p - s * c) <= bpow radix2 (-16))%R).
  { apply (rndN_error FLOAT (s * c) 8 HT); [lia|]. rewrite Rabs_pos_eq by nra. change (bpow radix2 8) with 256%R. lra. }
  assert (P0 : (0 <= p)%R).
  { rewrite <- (rndN_IZR FLOAT 0 HT) by (simpl; lia). apply rndN_le; auto. nra. }
  change (bpow radix2 (-16)) with (/ 65536)%R in P1. apply Rabs_le_inv in P1.
  assert (Rp : isN FLOAT (tmul FLOAT (tsqrt FLOAT (tofZ FLOAT N)) (multiplier n)) p).
  { apply (isT_mul 24 128 ltac:(lia) ltac:(lia)); auto. refine (proj2 (rndT_bound 24 128 _ _ 8 _ _)); try lia.
    rewrite Rabs_pos_eq by nra. change (bpow radix2 8) with 256%R. lra. }
  exists (rndN FLOAT (p + / 2)).
  assert (Z1 : (Rabs (rndN FLOAT (p + / 2) - (p + / 2)) <= bpow radix2 (-16))%R).
  { apply (rndN_error FLOAT (p + / 2) 8 HT); [lia|]. rewrite Rabs_pos_eq by lra. change (bpow radix2 8) with 256%R. lra. }
  change (bpow radix2 (-16)) with (/ 65536)%R in Z1. apply Rabs_le_inv in Z1.
  split; [|split].
  - apply (isT_add 24 128 ltac:(lia) ltac:(lia)); auto.
    + apply isT_half; lia.
    + refine (proj2 (rndT_bound 24 128 _ _ 8 _ _)); try lia.
      rewrite Rabs_pos_eq by lra. change (bpow radix2 8) with 256%R. lra.
  - lra.
  - rewrite Ex. change (bpow radix2 (-12)) with (/ 4096)%R. apply Rabs_le. lra.
Qed.

Lemma entry_near junk n i j : n = 3 \/ n = 4 -> 0 <= i <= 255 * n -> 0 <= j <= 255 * n ->
  exists z, entry junk n i j = Ok z /\ 0 <= z <= 255 /\
    (Rabs (IZR z - scaled n i j) <= / 2 + bpow radix2 (-12))%R.
Proof.
  intros Hn Hi Hj. destruct (magnitude_near n i j Hn Hi Hj) as (r & Hr & Rb & Re).
  exists (Ztrunc r). unfold entry, cast_to. rewrite (isT_trunc 24 128 _ _ Hr).
  rewrite Ztrunc_floor by lra. pose proof (Zfloor_lb r) as L1. pose proof (Zfloor_ub r) as L2.
  assert (Z0 : 0 <= Zfloor r) by (apply Zfloor_lub; simpl; lra).
  assert (Z1 : Zfloor r < 256) by (apply lt_IZR; lra).
  replace ((0 <=? Zfloor r) && (Zfloor r <? 256)) with true by lia.
  split; [reflexivity|]. split; [lia|]. apply Rabs_le_inv in Re. apply Rabs_le. lra.
Qed.
