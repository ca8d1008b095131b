(** The arithmetic on float and double of Edge.v in terms of real numbers (through Flocq). *)
From Coq Require Import ZArith Bool Reals Lia Lra Floats.SpecFloat.
From Flocq Require Import Core IEEE754.BinarySingleNaN Sterbenz.
From Verif Require Import Base Double DoubleProofs Edge.
Open Scope Z_scope.

Section FORMAT.
Variables prec emax : Z.
Hypothesis Hprec : 2 <= prec.
Hypothesis Hemax : prec < emax.
Hypothesis Hbig : 40 <= emax.

Lemma Pp : FLX.Prec_gt_0 prec.
Proof. unfold FLX.Prec_gt_0. lia. Qed.
Lemma Pe : Prec_lt_emax prec emax.
Proof. unfold Prec_lt_emax. lia. Qed.
#[local] Existing Instance Pp.
#[local] Existing Instance Pe.

Definition rndT (x : R) : R := round radix2 (SpecFloat.fexp prec emax) ZnearestE x.

(** The number [d] is finite and has the value [r]. *)
Definition isT (d : num) (r : R) : Prop :=
  exists b : binary_float prec emax, B2SF b = d /\ is_finite b = true /\ B2R b = r.

Lemma fexp_is e : SpecFloat.fexp prec emax e = Z.max (e - prec) (3 - emax - prec).
Proof. reflexivity. Qed.

#[local] Instance fexp_valid' : Valid_exp (SpecFloat.fexp prec emax) := fexp_correct prec emax Pp.

#[local] Instance fexp_mono' : Monotone_exp (SpecFloat.fexp prec emax).
Proof. intros a b H. rewrite !fexp_is. lia. Qed.

Lemma round_aux_eqT sx mx ex lx :
  SpecFloat.binary_round_aux prec emax sx mx ex lx
  = BinarySingleNaN.binary_round_aux prec emax mode_NE sx mx ex lx.
Proof.
  unfold SpecFloat.binary_round_aux, BinarySingleNaN.binary_round_aux.
  destruct (shr_fexp prec emax mx ex lx) as [mrs' e'].
  replace (round_nearest_even (shr_m mrs') (loc_of_shr_record mrs'))
    with (choice_mode mode_NE sx (shr_m mrs') (loc_of_shr_record mrs')).
  - reflexivity.
  - destruct (loc_of_shr_record mrs') as [|c]; [reflexivity|]. destruct c; try reflexivity.
    simpl. unfold Round.cond_incr. destruct (Z.even _); reflexivity.
Qed.

Lemma round_eqT s m e :
  SpecFloat.binary_round prec emax s m e = BinarySingleNaN.binary_round prec emax mode_NE s m e.
Proof.
  unfold SpecFloat.binary_round, BinarySingleNaN.binary_round, shl_align_fexp.
  destruct (shl_align _ _ _) as [mz ez]. apply round_aux_eqT.
Qed.

Lemma normalize_eqT m e z :
  SpecFloat.binary_normalize prec emax m e z
  = B2SF (BinarySingleNaN.binary_normalize prec emax Pp Pe mode_NE m e z).
Proof.
  destruct m as [|p|p]; simpl; [reflexivity| |]; rewrite B2SF_SF2B; apply round_eqT.
Qed.

Lemma add_eqT (x y : binary_float prec emax) :
  tadd (prec, emax) (B2SF x) (B2SF y) = B2SF (Bplus mode_NE x y).
Proof.
  destruct x as [sx|sx| |sx mx ex Bx], y as [sy|sy| |sy my ey By];
    try reflexivity; try (simpl; destruct (Bool.eqb _ _); reflexivity).
  apply normalize_eqT.
Qed.

Lemma sub_eqT (x y : binary_float prec emax) :
  tsub (prec, emax) (B2SF x) (B2SF y) = B2SF (Bminus mode_NE x y).
Proof.
  destruct x as [sx|sx| |sx mx ex Bx], y as [sy|sy| |sy my ey By];
    try reflexivity; try (simpl; destruct (Bool.eqb _ _); reflexivity).
  simpl. unfold Zminus. rewrite <- cond_Zopp_negb. apply normalize_eqT.
Qed.

Lemma isT_add x y a b : isT x a -> isT y b -> (Rabs (rndT (a + b)) < bpow radix2 emax)%R ->
  isT (tadd (prec, emax) x y) (rndT (a + b)).
Proof.
  intros (bx & <- & Fx & <-) (by_ & <- & Fy & <-) H.
  exists (Bplus mode_NE bx by_). split; [symmetry; apply add_eqT|].
  pose proof (Bplus_correct prec emax Pp Pe mode_NE bx by_ Fx Fy) as C.
  rewrite Rlt_bool_true in C by exact H. destruct C as (C1 & C2 & _). auto.
Qed.

Lemma isT_sub x y a b : isT x a -> isT y b -> (Rabs (rndT (a - b)) < bpow radix2 emax)%R ->
  isT (tsub (prec, emax) x y) (rndT (a - b)).
Proof.
  intros (bx & <- & Fx & <-) (by_ & <- & Fy & <-) H.
  exists (Bminus mode_NE bx by_). split; [symmetry; apply sub_eqT|].
  pose proof (Bminus_correct prec emax Pp Pe mode_NE bx by_ Fx Fy) as C.
  rewrite Rlt_bool_true in C by exact H. destruct C as (C1 & C2 & _). auto.
Qed.

Lemma isT_fun x a b : isT x a -> isT x b -> a = b.
Proof.
  intros (bx & Hx & Fx & <-) (by_ & Hy & Fy & <-). f_equal. apply B2SF_inj. congruence.
Qed.

Lemma isT_inj x y a : isT x a -> isT y a -> a <> 0%R -> x = y.
Proof.
  intros (bx & <- & Fx & Hx) (by_ & <- & Fy & Hy) Ha. f_equal. apply B2R_inj.
  - destruct bx; try discriminate; try reflexivity. simpl in Hx. congruence.
  - destruct by_; try discriminate; try reflexivity. simpl in Hy. congruence.
  - congruence.
Qed.

Lemma isT_format x a : isT x a -> generic_format radix2 (SpecFloat.fexp prec emax) a.
Proof. intros (b & _ & F & <-). apply generic_format_B2R. Qed.

Lemma isT_normalize m e s : (Rabs (rndT (F2R (Float radix2 m e))) < bpow radix2 emax)%R ->
  isT (SpecFloat.binary_normalize prec emax m e s) (rndT (F2R (Float radix2 m e))).
Proof.
  intros H. rewrite normalize_eqT. eexists. split; [reflexivity|].
  pose proof (binary_normalize_correct prec emax Pp Pe mode_NE m e s) as C. cbv zeta in C.
  rewrite Rlt_bool_true in C by exact H. tauto.
Qed.

Lemma rndT_format b : generic_format radix2 (SpecFloat.fexp prec emax) b -> rndT b = b.
Proof. intros H. apply round_generic; auto with typeclass_instances. Qed.

Lemma rndT_le a b : (a <= b)%R -> (rndT a <= rndT b)%R.
Proof. intros H. apply round_le; auto with typeclass_instances. Qed.

Lemma formatT_bpow e : 3 - emax - prec <= e -> generic_format radix2 (SpecFloat.fexp prec emax) (bpow radix2 e).
Proof. intros H. apply generic_format_bpow. rewrite fexp_is. lia. Qed.

Lemma rndT_bound x e : 3 - emax - prec <= e < emax -> (Rabs x <= bpow radix2 e)%R ->
  (Rabs (rndT x) <= bpow radix2 e)%R /\ (Rabs (rndT x) < bpow radix2 emax)%R.
Proof.
  intros He H. assert (A : (Rabs (rndT x) <= bpow radix2 e)%R).
  { apply abs_round_le_generic; auto with typeclass_instances. apply formatT_bpow. lia. }
  split; [exact A|]. eapply Rle_lt_trans; [exact A|]. apply bpow_lt. lia.
Qed.

(** Multiples of 2^e below 2^prec 2^e are exact. *)
Lemma formatT_F2R m e : 3 - emax - prec <= e -> Z.abs m <= 2 ^ prec ->
  generic_format radix2 (SpecFloat.fexp prec emax) (F2R (Float radix2 m e)).
Proof.
  intros He H.
  assert (HP : 0 < 2 ^ prec) by (apply Z.pow_pos_nonneg; lia).
  destruct (Z.eq_dec (Z.abs m) (2 ^ prec)) as [Hb|Hne].
  - assert (B : generic_format radix2 (SpecFloat.fexp prec emax) (F2R (Float radix2 (2 ^ prec) e))).
    { replace (F2R (Float radix2 (2 ^ prec) e)) with (bpow radix2 (prec + e)); [apply formatT_bpow; lia|].
      unfold F2R. cbn [Fnum Fexp]. rewrite bpow_plus. f_equal. rewrite <- (IZR_Zpower radix2) by lia. reflexivity. }
    assert (m = 2 ^ prec \/ m = - 2 ^ prec) as [-> | ->] by lia; [exact B|].
    rewrite (F2R_Zopp radix2 (2 ^ prec) e : F2R (Float radix2 (- 2 ^ prec) e) = _).
    apply generic_format_opp. exact B.
  - change (SpecFloat.fexp prec emax) with (FLT_exp (3 - emax - prec) prec).
    apply generic_format_FLT. apply (FLT_spec radix2 (3 - emax - prec) prec _ (Float radix2 m e)).
    + reflexivity.
    + cbn [Fnum]. change (Zpower radix2 prec) with (2 ^ prec). lia.
    + cbn [Fexp]. exact He.
Qed.

Lemma formatT_IZR z : Z.abs z <= 2 ^ prec -> generic_format radix2 (SpecFloat.fexp prec emax) (IZR z).
Proof.
  intros H. replace (IZR z) with (F2R (Float radix2 z 0)) by (unfold F2R; simpl; lra).
  apply formatT_F2R; lia.
Qed.

Lemma isT_ofZ z : Z.abs z <= 2 ^ 34 -> isT (tofZ (prec, emax) z) (rndT (IZR z)).
Proof.
  intros H. unfold tofZ. cbn [fst snd].
  replace (IZR z) with (F2R (Float radix2 z 0)) by (unfold F2R; simpl; lra).
  apply isT_normalize. apply (rndT_bound _ 34); [lia|].
  replace (F2R (Float radix2 z 0)) with (IZR z) by (unfold F2R; simpl; lra).
  rewrite <- abs_IZR. rewrite <- (IZR_Zpower radix2) by lia. apply IZR_le. exact H.
Qed.

Lemma isT_half : isT (thalf (prec, emax)) (/ 2).
Proof.
  unfold thalf. cbn [fst snd].
  assert (A : F2R (Float radix2 1 (-1)) = (/ 2)%R) by (unfold F2R; simpl; lra).
  assert (B : rndT (F2R (Float radix2 1 (-1))) = (/ 2)%R).
  { rewrite rndT_format; [exact A|]. apply formatT_F2R; [lia|].
    change (Z.abs 1) with 1. pose proof (Z.pow_pos_nonneg 2 prec). lia. }
  rewrite <- B. apply isT_normalize. rewrite B. rewrite Rabs_pos_eq by lra.
  apply Rlt_le_trans with (bpow radix2 0); [simpl; lra|]. apply bpow_le. lia.
Qed.

(** Subtraction of numbers close to each other is exact; so a computed difference of at least
    one is a difference of at least one. *)
Lemma apart a b : generic_format radix2 (SpecFloat.fexp prec emax) a ->
  generic_format radix2 (SpecFloat.fexp prec emax) b -> (1 <= b)%R ->
  (1 <= rndT (a - b))%R -> (1 <= a - b)%R.
Proof.
  intros Fa Fb Hb H. destruct (Rle_or_lt 1 (a - b)) as [K|K]; [exact K|]. exfalso.
  destruct (Rle_or_lt a b) as [L|L].
  - assert (rndT (a - b) <= rndT 0)%R by (apply rndT_le; lra).
    rewrite (rndT_format 0) in H0 by apply generic_format_0. lra.
  - assert (rndT (a - b) = a - b)%R; [|lra]. apply rndT_format.
    apply sterbenz; auto with typeclass_instances; lra.
Qed.

End FORMAT.

Lemma isR_isT d r : isR d r <-> isT 53 1024 d r.
Proof. reflexivity. Qed.
Lemma rnd_rndT x : rnd x = rndT 53 1024 x.
Proof. reflexivity. Qed.

(** Conversion between formats. *)
Lemma isT_cast p e p' e' d r : 2 <= p' -> p' < e' -> 40 <= e' ->
  isT p e d r -> (Rabs (rndT p' e' r) < bpow radix2 e')%R -> isT p' e' (tcast (p', e') d) (rndT p' e' r).
Proof.
  intros H1 H2 H3 (b & <- & F & <-) H. destruct b as [s|s| |s m x B]; try discriminate.
  - cbn [B2SF tcast B2R] in *. exists (B754_zero s). split; [reflexivity|]. split; [reflexivity|].
    cbn [B2R]. unfold rndT. rewrite round_0; auto with typeclass_instances.
  - cbn [B2SF tcast B2R fst snd] in *.
    replace (if s then Z.neg m else Z.pos m) with (cond_Zopp s (Zpos m)) by (destruct s; reflexivity).
    apply isT_normalize; auto.
Qed.

(** float and double *)
Definition real_type (T : ftype) : Prop := T = FLOAT \/ T = DOUBLE.

Lemma real_bounds T : real_type T -> 2 <= fst T /\ fst T < snd T /\ 40 <= snd T.
Proof. intros [-> | ->]; simpl; lia. Qed.

Definition isN (T : ftype) : num -> R -> Prop := isT (fst T) (snd T).
Definition rndN (T : ftype) : R -> R := rndT (fst T) (snd T).

Lemma isN_widen T d r : real_type T -> isN T d r -> isR (tcast DOUBLE d) r.
Proof.
  intros HT H.
  assert (F : generic_format radix2 (SpecFloat.fexp 53 1024) r).
  { pose proof (isT_format _ _ _ _ H) as F. destruct HT as [-> | ->]; [|exact F]. cbn [FLOAT fst snd] in *.
    revert F. apply generic_inclusion_mag. intros _. rewrite !fexp_is. lia. }
  assert (R1 : rndT 53 1024 r = r) by (apply rndT_format; first [exact F|lia]).
  rewrite <- R1. apply (isT_cast (fst T) (snd T)); try lia; [exact H|]. rewrite R1.
  destruct H as (b & _ & _ & <-). eapply Rlt_le_trans; [apply abs_B2R_lt_emax|].
  apply bpow_le. destruct HT as [-> | ->]; simpl; lia.
Qed.

(** The comparison in removeSimilarPoints. *)
Lemma separated_test T d e a b : real_type T -> isN T d a -> isN T e b ->
  (1 <= b <= bpow radix2 34)%R -> (1 <= a <= bpow radix2 34)%R ->
  dlt (tcast DOUBLE (tsub T d e)) (dofZ 1) = false -> (1 <= a - b)%R.
Proof.
  intros HT Hd He Hb Ha H. pose proof (real_bounds T HT) as (B1 & B2 & B3).
  assert (W : isN T (tsub T d e) (rndN T (a - b))).
  { destruct T as [p x]. apply isT_sub; auto; cbn [fst snd] in *.
    apply rndT_bound with (e := 34); try lia.
    apply Rabs_le. lra. }
  apply (isN_widen T _ _ HT) in W.
  rewrite (isR_lt _ _ _ _ W (isR_ofZ 1 ltac:(lia))) in H.
  destruct (Rlt_bool_spec (rndN T (a - b)) 1) as [|K]; [discriminate|].
  destruct T as [p x]. cbn [fst snd] in *. apply (apart p x); try lia; try lra.
  - apply (isT_format _ _ _ _ Hd).
  - apply (isT_format _ _ _ _ He).
  - exact K.
Qed.

(** ** The position computed by findPoint *)
Definition pt (T : ftype) (i a b : Z) : num :=
  if a =? b then tadd T (tofZ T i) (thalf T)
  else tcast T (dadd (dofZ i) (ddiv (dofZ a) (dofZ (a - b)))).

(** The exact position. *)
Definition exact_pt (i a b : Z) : R :=
  if a =? b then (IZR i + / 2)%R else (IZR i + IZR a / IZR (a - b))%R.

Lemma rndN_le T a b : real_type T -> (a <= b)%R -> (rndN T a <= rndN T b)%R.
Proof. intros HT H. pose proof (real_bounds T HT). apply rndT_le; first [exact H|lia]. Qed.

Lemma rndN_IZR T z : real_type T -> Z.abs z <= 2 ^ fst T -> rndN T (IZR z) = IZR z.
Proof.
  intros HT H. pose proof (real_bounds T HT). apply rndT_format; try lia. apply formatT_IZR; lia.
Qed.

Lemma rndN_one T : real_type T -> rndN T 1 = 1%R.
Proof. intros HT. apply (rndN_IZR T 1 HT). destruct HT as [-> | ->]; simpl; lia. Qed.

Lemma rndN_34 T x : real_type T -> (1 <= x <= bpow radix2 33)%R -> (1 <= rndN T x <= bpow radix2 33)%R.
Proof.
  intros HT [H1 H2]. split.
  - rewrite <- (rndN_one T HT). apply rndN_le; auto.
  - pose proof (real_bounds T HT). eapply Rle_trans; [apply Rle_abs|].
    apply rndT_bound; try lia. rewrite Rabs_pos_eq by lra. exact H2.
Qed.

Lemma rndN_error T x k : real_type T -> 0 <= k <= 33 -> (Rabs x <= bpow radix2 k)%R ->
  (Rabs (rndN T x - x) <= bpow radix2 (k - fst T))%R.
Proof.
  intros HT Hk H. pose proof (real_bounds T HT) as (B1 & B2 & B3).
  assert (V : Valid_exp (SpecFloat.fexp (fst T) (snd T))) by (apply fexp_correct; unfold FLX.Prec_gt_0; lia).
  assert (M : Monotone_exp (SpecFloat.fexp (fst T) (snd T))) by (intros a b L; rewrite !fexp_is; lia).
  unfold rndN, rndT.
  eapply Rle_trans; [apply error_le_half_ulp; auto with typeclass_instances|].
  assert (Hu : (ulp radix2 (SpecFloat.fexp (fst T) (snd T)) x <= bpow radix2 (k + 1 - fst T))%R).
  { eapply Rle_trans.
    - apply ulp_le with (y := bpow radix2 k); auto.
      rewrite (Rabs_pos_eq (bpow radix2 k)) by apply bpow_ge_0. exact H.
    - rewrite ulp_bpow. apply bpow_le. rewrite fexp_is. destruct HT as [-> | ->]; simpl; lia. }
  replace (k - fst T) with (-1 + (k + 1 - fst T)) by lia. rewrite bpow_plus. change (bpow radix2 (-1)) with (/2)%R.
  apply Rmult_le_compat_l; [lra|exact Hu].
Qed.

Lemma IZR_bpow z k : 0 <= k -> 0 <= z <= 2 ^ k -> (0 <= IZR z <= bpow radix2 k)%R.
Proof.
  intros Hk [H0 H]. rewrite <- (IZR_Zpower radix2) by exact Hk. split; apply IZR_le; auto.
Qed.

Lemma isN_cast T x a : real_type T -> isR x a -> (1 <= a <= bpow radix2 33)%R -> isN T (tcast T x) (rndN T a).
Proof.
  intros HT H Ha. pose proof (real_bounds T HT) as (B1 & B2 & B3). destruct T as [p e].
  apply (isT_cast 53 1024); auto. apply rndT_bound with (e := 33); try lia.
  rewrite Rabs_pos_eq by lra. lra.
Qed.

Lemma pt_value T i a b k : real_type T -> 1 <= i -> i + 1 <= 2 ^ k -> 0 <= k <= 32 ->
  0 <= a <= 2 ^ 31 -> - 2 ^ 31 <= b <= 0 -> a - b < 2 ^ 31 ->
  exists v, isN T (pt T i a b) v /\ (1 <= v <= bpow radix2 33)%R /\
    (i + 1 <= 2 ^ fst T -> (IZR i <= v <= IZR (i + 1))%R) /\
    (Rabs (v - exact_pt i a b) <= 3 * bpow radix2 (k - fst T))%R.
Proof.
  intros HT Hi Hik Hk Ha Hb Hab. pose proof (real_bounds T HT) as (B1 & B2 & B3).
  assert (P53 : fst T <= 53) by (destruct HT as [-> | ->]; simpl; lia).
  assert (H2k : 2 ^ k <= 2 ^ 32) by (apply Z.pow_le_mono_r; lia).
  assert (I1 : (1 <= IZR i)%R) by (apply IZR_le; lia).
  assert (IK : (IZR i + 1 <= bpow radix2 k)%R).
  { rewrite <- plus_IZR. apply IZR_bpow; lia. }
  assert (K33 : (bpow radix2 k <= bpow radix2 33)%R) by (apply bpow_le; lia).
  assert (Bp : (0 < bpow radix2 (k - fst T))%R) by apply bpow_gt_0.
  unfold pt, exact_pt. destruct (Z.eqb_spec a b) as [E|N].
  - assert (Hz : isN T (tofZ T i) (rndN T (IZR i))).
    { destruct T as [p e]. apply isT_ofZ; cbn [fst snd] in *; try lia. }
    assert (Hh : isN T (thalf T) (/ 2)) by (destruct T as [p e]; apply isT_half; cbn [fst snd] in *; lia).
    assert (Q : (1 <= rndN T (IZR i) <= bpow radix2 k)%R).
    { split; [rewrite <- (rndN_one T HT); apply rndN_le; auto|].
      eapply Rle_trans; [apply Rle_abs|]. apply rndT_bound; try lia.
      rewrite Rabs_pos_eq by lra. lra. }
    assert (Q2 : (1 <= rndN T (IZR i) + / 2 <= bpow radix2 33)%R).
    { split; [lra|]. apply Rle_trans with (bpow radix2 k + bpow radix2 0)%R; [simpl; lra|].
      apply Rle_trans with (bpow radix2 32 + bpow radix2 32)%R.
      - apply Rplus_le_compat; apply bpow_le; lia.
      - simpl. lra. }
    exists (rndN T (rndN T (IZR i) + / 2)). split; [|split; [|split]].
    + destruct T as [p e]. apply isT_add; auto. apply rndT_bound with (e := 33); try (cbn [fst snd] in *; lia).
      rewrite Rabs_pos_eq by lra. lra.
    + apply rndN_34; auto.
    + intros L. rewrite (rndN_IZR T i HT) by lia. split.
      * rewrite <- (rndN_IZR T i HT) at 1 by lia. apply rndN_le; auto. lra.
      * rewrite <- (rndN_IZR T (i + 1) HT) at 1 by lia. apply rndN_le; auto. rewrite plus_IZR. lra.
    + (* two roundings *)
      assert (E1 : (Rabs (rndN T (IZR i) - IZR i) <= bpow radix2 (k - fst T))%R).
      { apply rndN_error; auto; [lia|]. rewrite Rabs_pos_eq by lra. lra. }
      assert (E2 : (Rabs (rndN T (rndN T (IZR i) + / 2) - (rndN T (IZR i) + / 2)) <= bpow radix2 (k + 1 - fst T))%R).
      { apply rndN_error; auto; [lia|]. rewrite Rabs_pos_eq by lra. rewrite bpow_plus.
        change (bpow radix2 1) with 2%R. pose proof (bpow_le radix2 0 k ltac:(lia)) as W. simpl in W. lra. }
      replace (k + 1 - fst T) with (1 + (k - fst T)) in E2 by lia. rewrite bpow_plus in E2.
      change (bpow radix2 1) with 2%R in E2.
      replace (rndN T (rndN T (IZR i) + / 2) - (IZR i + / 2))%R
        with ((rndN T (rndN T (IZR i) + / 2) - (rndN T (IZR i) + / 2)) + (rndN T (IZR i) - IZR i))%R by ring.
      eapply Rle_trans; [apply Rabs_triang|]. lra.
  - assert (D0 : 1 <= a - b) by lia.
    assert (D0' : (0 < IZR (a - b))%R) by (apply IZR_lt; lia).
    assert (A0 : (0 <= IZR a)%R) by (apply IZR_le; lia).
    set (q := (IZR a / IZR (a - b))%R).
    assert (Q : (0 <= q <= 1)%R).
    { unfold q. split.
      - apply Rmult_le_pos; [exact A0|]. left. apply Rinv_0_lt_compat. exact D0'.
      - apply Rmult_le_reg_r with (IZR (a - b)); [exact D0'|]. unfold Rdiv.
        rewrite Rmult_assoc, Rinv_l, Rmult_1_r, Rmult_1_l by lra. apply IZR_le. lia. }
    destruct (divZ_bound a (a - b) 0 ltac:(lia) ltac:(lia) ltac:(lia) ltac:(lia)) as (V1 & V2 & V3).
    fold q in V1, V2, V3. rewrite Rabs_pos_eq in V3 by exact V2. simpl in V3.
    assert (E0 : (Rabs (rnd q - q) <= bpow radix2 (-53))%R).
    { apply (rnd_error q 0); [lia|]. rewrite Rabs_pos_eq by lra. simpl. lra. }
    assert (A1 : isR (dadd (dofZ i) (ddiv (dofZ a) (dofZ (a - b)))) (rnd (IZR i + rnd q))).
    { apply isR_add; auto; [apply isR_ofZ; lia|]. apply (bound_big _ 33); [lia|]. apply rnd_bound; [lia|].
      rewrite Rabs_pos_eq by lra. lra. }
    assert (I53 : forall z, Z.abs z <= 2 ^ 53 -> rnd (IZR z) = IZR z) by (intros z Hz; apply rnd_format, format_IZR; exact Hz).
    assert (R1 : (IZR i <= rnd (IZR i + rnd q) <= IZR (i + 1))%R).
    { split.
      - rewrite <- (I53 i) at 1 by lia. apply rnd_le. lra.
      - rewrite <- (I53 (i + 1)) by lia. apply rnd_le. rewrite plus_IZR. lra. }
    rewrite plus_IZR in R1.
    exists (rndN T (rnd (IZR i + rnd q))). split; [|split; [|split]].
    + apply isN_cast; auto. lra.
    + apply rndN_34; auto. lra.
    + intros L. split.
      * rewrite <- (rndN_IZR T i HT) at 1 by lia. apply rndN_le; auto. lra.
      * rewrite <- (rndN_IZR T (i + 1) HT) at 1 by lia. apply rndN_le; auto. rewrite plus_IZR. lra.
    + assert (E1 : (Rabs (rnd (IZR i + rnd q) - (IZR i + rnd q)) <= bpow radix2 (k - 53))%R).
      { apply rnd_error; [lia|]. rewrite Rabs_pos_eq by lra. lra. }
      assert (E2 : (Rabs (rndN T (rnd (IZR i + rnd q)) - rnd (IZR i + rnd q)) <= bpow radix2 (k - fst T))%R).
      { apply rndN_error; auto; [lia|]. rewrite Rabs_pos_eq by lra. lra. }
      assert (E0' : (bpow radix2 (-53) <= bpow radix2 (k - fst T))%R) by (apply bpow_le; lia).
      assert (E1' : (bpow radix2 (k - 53) <= bpow radix2 (k - fst T))%R) by (apply bpow_le; lia).
      replace (rndN T (rnd (IZR i + rnd q)) - (IZR i + q))%R
        with ((rndN T (rnd (IZR i + rnd q)) - rnd (IZR i + rnd q)) + ((rnd (IZR i + rnd q) - (IZR i + rnd q)) + (rnd q - q)))%R by ring.
      eapply Rle_trans; [apply Rabs_triang|].
      apply Rle_trans with (bpow radix2 (k - fst T) + (bpow radix2 (k - 53) + bpow radix2 (-53)))%R; [|lra].
      apply Rplus_le_compat; [exact E2|]. eapply Rle_trans; [apply Rabs_triang|]. lra.
Qed.
