(** The arithmetic of Double.v in terms of real numbers (through Flocq). *)
From Coq Require Import ZArith Bool Reals Lia Lra Floats.SpecFloat.
From Flocq Require Import Core IEEE754.BinarySingleNaN.
From Verif Require Import Base Double.
Open Scope Z_scope.

Local Instance prec_pos : FLX.Prec_gt_0 53 := eq_refl.
Local Instance prec_emax : Prec_lt_emax 53 1024 := eq_refl.

Notation bf := (binary_float 53 1024).

(** Rounding to the nearest binary64 number. *)
Definition rnd (x : R) : R := round radix2 (SpecFloat.fexp 53 1024) ZnearestE x.

(** The double [d] is finite and has the value [r]. *)
Definition isR (d : double) (r : R) : Prop :=
  exists b : bf, B2SF b = d /\ is_finite b = true /\ B2R b = r.

Lemma round_aux_eq sx mx ex lx :
  SpecFloat.binary_round_aux 53 1024 sx mx ex lx
  = BinarySingleNaN.binary_round_aux 53 1024 mode_NE sx mx ex lx.
Proof.
  unfold SpecFloat.binary_round_aux, BinarySingleNaN.binary_round_aux.
  destruct (shr_fexp 53 1024 mx ex lx) as [mrs' e'].
  replace (round_nearest_even (shr_m mrs') (loc_of_shr_record mrs'))
    with (choice_mode mode_NE sx (shr_m mrs') (loc_of_shr_record mrs')).
  - reflexivity.
  - destruct (loc_of_shr_record mrs') as [|c]; [reflexivity|]. destruct c; try reflexivity.
    simpl. unfold Round.cond_incr. destruct (Z.even _); reflexivity.
Qed.

Lemma round_eq s m e :
  SpecFloat.binary_round 53 1024 s m e = BinarySingleNaN.binary_round 53 1024 mode_NE s m e.
Proof.
  unfold SpecFloat.binary_round, BinarySingleNaN.binary_round, shl_align_fexp.
  destruct (shl_align _ _ _) as [mz ez]. apply round_aux_eq.
Qed.

Lemma normalize_eq m e z :
  SpecFloat.binary_normalize 53 1024 m e z
  = B2SF (BinarySingleNaN.binary_normalize 53 1024 prec_pos prec_emax mode_NE m e z).
Proof.
  destruct m as [|p|p]; simpl; [reflexivity| |]; rewrite B2SF_SF2B; apply round_eq.
Qed.

Lemma mul_eq (x y : bf) : dmul (B2SF x) (B2SF y) = B2SF (Bmult mode_NE x y).
Proof.
  destruct x as [sx|sx| |sx mx ex Bx], y as [sy|sy| |sy my ey By]; try reflexivity.
  simpl. rewrite B2SF_SF2B. apply round_aux_eq.
Qed.

Lemma add_eq (x y : bf) : dadd (B2SF x) (B2SF y) = B2SF (Bplus mode_NE x y).
Proof.
  destruct x as [sx|sx| |sx mx ex Bx], y as [sy|sy| |sy my ey By];
    try reflexivity; try (simpl; destruct (Bool.eqb _ _); reflexivity).
  apply normalize_eq.
Qed.

Lemma sub_eq (x y : bf) : dsub (B2SF x) (B2SF y) = B2SF (Bminus mode_NE x y).
Proof.
  destruct x as [sx|sx| |sx mx ex Bx], y as [sy|sy| |sy my ey By];
    try reflexivity; try (simpl; destruct (Bool.eqb _ _); reflexivity).
  simpl. unfold Zminus. rewrite <- cond_Zopp_negb. apply normalize_eq.
Qed.

Lemma div_eq (x y : bf) : ddiv (B2SF x) (B2SF y) = B2SF (Bdiv mode_NE x y).
Proof.
  destruct x as [sx|sx| |sx mx ex Bx], y as [sy|sy| |sy my ey By];
    try reflexivity; try (simpl; destruct (Bool.eqb _ _); reflexivity).
  simpl. rewrite B2SF_SF2B. destruct (SFdiv_core_binary _ _ _ _ _ _) as [[mz ez] lz]. apply round_aux_eq.
Qed.

(** ** Operations without overflow *)

Definition big : R := bpow radix2 1024.

Lemma isR_mul x y a b : isR x a -> isR y b -> (Rabs (rnd (a * b)) < big)%R -> isR (dmul x y) (rnd (a * b)).
Proof.
  intros (bx & <- & Fx & <-) (by_ & <- & Fy & <-) H.
  exists (Bmult mode_NE bx by_). split; [symmetry; apply mul_eq|].
  pose proof (Bmult_correct 53 1024 prec_pos prec_emax mode_NE bx by_) as C.
  rewrite Rlt_bool_true in C by exact H. destruct C as (C1 & C2 & _). rewrite C2, Fx, Fy.
  split; [reflexivity|exact C1].
Qed.

Lemma isR_add x y a b : isR x a -> isR y b -> (Rabs (rnd (a + b)) < big)%R -> isR (dadd x y) (rnd (a + b)).
Proof.
  intros (bx & <- & Fx & <-) (by_ & <- & Fy & <-) H.
  exists (Bplus mode_NE bx by_). split; [symmetry; apply add_eq|].
  pose proof (Bplus_correct 53 1024 prec_pos prec_emax mode_NE bx by_ Fx Fy) as C.
  rewrite Rlt_bool_true in C by exact H. destruct C as (C1 & C2 & _). auto.
Qed.

Lemma isR_sub x y a b : isR x a -> isR y b -> (Rabs (rnd (a - b)) < big)%R -> isR (dsub x y) (rnd (a - b)).
Proof.
  intros (bx & <- & Fx & <-) (by_ & <- & Fy & <-) H.
  exists (Bminus mode_NE bx by_). split; [symmetry; apply sub_eq|].
  pose proof (Bminus_correct 53 1024 prec_pos prec_emax mode_NE bx by_ Fx Fy) as C.
  rewrite Rlt_bool_true in C by exact H. destruct C as (C1 & C2 & _). auto.
Qed.

Lemma isR_div x y a b : isR x a -> isR y b -> b <> 0%R -> (Rabs (rnd (a / b)) < big)%R ->
  isR (ddiv x y) (rnd (a / b)).
Proof.
  intros (bx & <- & Fx & <-) (by_ & <- & Fy & <-) Hb H.
  exists (Bdiv mode_NE bx by_). split; [symmetry; apply div_eq|].
  pose proof (Bdiv_correct 53 1024 prec_pos prec_emax mode_NE bx by_ Hb) as C.
  rewrite Rlt_bool_true in C by exact H. destruct C as (C1 & C2 & _). rewrite C2. auto.
Qed.

Lemma rnd_format b : generic_format radix2 (SpecFloat.fexp 53 1024) b -> rnd b = b.
Proof. intros H. apply round_generic; auto with typeclass_instances. Qed.

Global Instance fexp_valid : Valid_exp (SpecFloat.fexp 53 1024) := fexp_correct 53 1024 prec_pos.

Lemma rnd_le a b : (a <= b)%R -> (rnd a <= rnd b)%R.
Proof. intros H. apply round_le; auto with typeclass_instances. Qed.

Lemma format_IZR z : Z.abs z <= 2 ^ 53 -> generic_format radix2 (SpecFloat.fexp 53 1024) (IZR z).
Proof.
  intros H. change (SpecFloat.fexp 53 1024) with (FLT_exp (-1074) 53).
  destruct (Z.eq_dec (Z.abs z) (2 ^ 53)) as [He|Hne].
  - assert (z = 2 ^ 53 \/ z = - 2 ^ 53) as [-> | ->] by lia.
    + apply generic_format_bpow' with (e := 53); auto with typeclass_instances. 
      unfold FLT_exp. lia.
    + rewrite opp_IZR. apply generic_format_opp.
      apply generic_format_bpow' with (e := 53); auto with typeclass_instances.
      unfold FLT_exp. lia.
  - apply generic_format_FLT. apply (FLT_spec radix2 (-1074) 53 (IZR z) (Float radix2 z 0)).
    + unfold F2R. simpl. lra.
    + simpl. change (Z.pow_pos 2 53) with (2 ^ 53). lia.
    + simpl. lia.
Qed.

Lemma big_lt z : Z.abs z <= 2 ^ 1023 -> (Rabs (IZR z) < big)%R.
Proof.
  intros H. unfold big. rewrite <- abs_IZR. rewrite <- (IZR_Zpower radix2) by lia.
  apply IZR_lt. change (Zpower radix2 1024) with (2 ^ 1024). lia.
Qed.

Lemma isR_ofZ z : Z.abs z <= 2 ^ 53 -> isR (dofZ z) (IZR z).
Proof.
  intros H. unfold dofZ. rewrite normalize_eq. eexists. split; [reflexivity|].
  pose proof (binary_normalize_correct 53 1024 prec_pos prec_emax mode_NE z 0 false) as C.
  cbv zeta in C. replace (F2R (Float radix2 z 0)) with (IZR z) in C by (unfold F2R; simpl; lra).
  fold (rnd (IZR z)) in C. rewrite rnd_format in C by (apply format_IZR; exact H).
  rewrite Rlt_bool_true in C by (apply big_lt; lia). tauto.
Qed.

Lemma isR_half : isR dhalf (/ 2).
Proof.
  exists (@B754_finite 53 1024 false 4503599627370496 (-53) eq_refl). split; [reflexivity|]. split; [reflexivity|].
  unfold B2R, F2R. simpl. lra.
Qed.

(** ** Comparison and truncation *)

Lemma isR_lt x y a b : isR x a -> isR y b -> dlt x y = Rlt_bool a b.
Proof.
  intros (bx & <- & Fx & <-) (by_ & <- & Fy & <-).
  exact (Bltb_correct 53 1024 bx by_ Fx Fy).
Qed.

Lemma isR_le x y a b : isR x a -> isR y b -> dle x y = Rle_bool a b.
Proof.
  intros (bx & <- & Fx & <-) (by_ & <- & Fy & <-).
  exact (Bleb_correct 53 1024 bx by_ Fx Fy).
Qed.

Lemma isR_fun x a b : isR x a -> isR x b -> a = b.
Proof.
  intros (bx & Hx & Fx & <-) (by_ & Hy & Fy & <-). f_equal. apply B2SF_inj. congruence.
Qed.

Lemma isR_trunc x a : isR x a -> dtrunc x = Some (Ztrunc a).
Proof.
  intros (bx & <- & Fx & <-). destruct bx as [s|s| |s m e B]; try discriminate.
  - simpl. rewrite Ztrunc_IZR. reflexivity.
  - cbn [B2SF dtrunc B2R]. f_equal.
    destruct (Z.leb_spec 0 e) as [He|He].
    + replace (F2R (Float radix2 (cond_Zopp s (Zpos m)) e))
        with (IZR ((if s then - Zpos m else Zpos m) * 2 ^ e)).
      * rewrite Ztrunc_IZR. destruct s; lia.
      * unfold F2R. cbn [Fnum Fexp]. rewrite mult_IZR. rewrite <- (IZR_Zpower radix2) by lia.
        destruct s; reflexivity.
    + assert (Hp : (0 < IZR (2 ^ (- e)))%R) by (apply IZR_lt; apply Z.pow_pos_nonneg; lia).
      assert (Hf : F2R (Float radix2 (Zpos m) e) = (IZR (Zpos m) / IZR (2 ^ (- e)))%R).
      { unfold F2R. cbn [Fnum Fexp]. replace e with (- - e) at 1 by lia. rewrite bpow_opp.
        rewrite <- (IZR_Zpower radix2) by lia. reflexivity. }
      assert (Ht : Ztrunc (IZR (Zpos m) / IZR (2 ^ (- e))) = Zpos m / 2 ^ (- e)).
      { rewrite Ztrunc_floor.
        - rewrite Zfloor_div; [reflexivity|]. pose proof (Z.pow_pos_nonneg 2 (- e)). lia.
        - apply Rmult_le_pos; [apply IZR_le; lia|]. left. apply Rinv_0_lt_compat. exact Hp. }
      destruct s; cbn [cond_Zopp].
      * rewrite (F2R_Zopp radix2 (Zpos m) e : F2R (Float radix2 (- Zpos m) e) = _).
        rewrite Ztrunc_opp, Hf, Ht. reflexivity.
      * rewrite Hf, Ht. reflexivity.
Qed.

(** ** Bounds *)

Lemma rnd_bound x e : -1000 <= e <= 1000 -> (Rabs x <= bpow radix2 e)%R -> (Rabs (rnd x) <= bpow radix2 e)%R.
Proof.
  intros He H. apply abs_round_le_generic; auto with typeclass_instances.
  apply generic_format_bpow. change (SpecFloat.fexp 53 1024) with (FLT_exp (-1074) 53).
  unfold FLT_exp. lia.
Qed.

Lemma bound_big x e : e < 1024 -> (Rabs x <= bpow radix2 e)%R -> (Rabs x < big)%R.
Proof. intros He H. eapply Rle_lt_trans; [exact H|]. apply bpow_lt. lia. Qed.

Lemma mul_bound x y a b ea eb : isR x a -> isR y b ->
  (Rabs a <= bpow radix2 ea)%R -> (Rabs b <= bpow radix2 eb)%R -> -1000 <= ea + eb <= 1000 ->
  isR (dmul x y) (rnd (a * b)) /\ (Rabs (rnd (a * b)) <= bpow radix2 (ea + eb))%R.
Proof.
  intros Hx Hy Ha Hb He.
  assert (H : (Rabs (rnd (a * b)) <= bpow radix2 (ea + eb))%R).
  { apply rnd_bound; [lia|]. rewrite Rabs_mult, bpow_plus.
    apply Rmult_le_compat; auto using Rabs_pos. }
  split; [|exact H]. apply isR_mul; auto. eapply bound_big; [|exact H]. lia.
Qed.

Lemma sub_bound x y a b e : isR x a -> isR y b ->
  (Rabs a <= bpow radix2 e)%R -> (Rabs b <= bpow radix2 e)%R -> -1000 <= e + 1 <= 1000 ->
  isR (dsub x y) (rnd (a - b)) /\ (Rabs (rnd (a - b)) <= bpow radix2 (e + 1))%R.
Proof.
  intros Hx Hy Ha Hb He.
  assert (H : (Rabs (rnd (a - b)) <= bpow radix2 (e + 1))%R).
  { apply rnd_bound; [lia|]. rewrite bpow_plus. change (bpow radix2 1) with 2%R.
    eapply Rle_trans; [apply (Rabs_triang a (- b))|]. rewrite Rabs_Ropp. lra. }
  split; [|exact H]. apply isR_sub; auto. eapply bound_big; [|exact H]. lia.
Qed.

Lemma add_bound x y a b e : isR x a -> isR y b ->
  (Rabs a <= bpow radix2 e)%R -> (Rabs b <= bpow radix2 e)%R -> -1000 <= e + 1 <= 1000 ->
  isR (dadd x y) (rnd (a + b)) /\ (Rabs (rnd (a + b)) <= bpow radix2 (e + 1))%R.
Proof.
  intros Hx Hy Ha Hb He.
  assert (H : (Rabs (rnd (a + b)) <= bpow radix2 (e + 1))%R).
  { apply rnd_bound; [lia|]. rewrite bpow_plus. change (bpow radix2 1) with 2%R.
    eapply Rle_trans; [apply (Rabs_triang a b)|]. lra. }
  split; [|exact H]. apply isR_add; auto. eapply bound_big; [|exact H]. lia.
Qed.

(** Quotient of integers below 2^53 by positive ones. *)
Lemma divZ_bound p q e : 0 <= p <= 2 ^ 53 -> 1 <= q <= 2 ^ 53 -> 0 <= e <= 53 -> p <= 2 ^ e * q ->
  isR (ddiv (dofZ p) (dofZ q)) (rnd (IZR p / IZR q)) /\
  (0 <= rnd (IZR p / IZR q))%R /\ (Rabs (rnd (IZR p / IZR q)) <= bpow radix2 e)%R.
Proof.
  intros Hp Hq He Hpq.
  assert (Hq0 : (0 < IZR q)%R) by (apply IZR_lt; lia).
  assert (Hp0 : (0 <= IZR p)%R) by (apply IZR_le; lia).
  assert (H0 : (0 <= IZR p / IZR q)%R).
  { apply Rmult_le_pos; [exact Hp0|]. left. apply Rinv_0_lt_compat. exact Hq0. }
  assert (H : (Rabs (rnd (IZR p / IZR q)) <= bpow radix2 e)%R).
  { apply rnd_bound; [lia|]. rewrite Rabs_pos_eq by exact H0.
    rewrite <- (IZR_Zpower radix2) by lia. apply Rmult_le_reg_r with (IZR q); [exact Hq0|].
    unfold Rdiv. rewrite Rmult_assoc, Rinv_l, Rmult_1_r by lra. rewrite <- mult_IZR. apply IZR_le.
    exact Hpq. }
  split; [|split; [|exact H]].
  - apply isR_div; try (apply isR_ofZ; lia); [lra|]. eapply bound_big; [|exact H]. lia.
  - rewrite <- (rnd_format 0) by apply generic_format_0. apply rnd_le. exact H0.
Qed.

(** ** Rounding error and overflow *)

Lemma rnd_error x e : -1000 <= e <= 1000 -> (Rabs x <= bpow radix2 e)%R ->
  (Rabs (rnd x - x) <= bpow radix2 (e - 53))%R.
Proof.
  intros He H. unfold rnd.
  eapply Rle_trans; [apply error_le_half_ulp; auto with typeclass_instances|].
  assert (Hu : (ulp radix2 (SpecFloat.fexp 53 1024) x <= bpow radix2 (e - 52))%R).
  { eapply Rle_trans.
    - apply ulp_le with (y := bpow radix2 e); auto with typeclass_instances.
      + change (SpecFloat.fexp 53 1024) with (FLT_exp (-1074) 53). auto with typeclass_instances.
      + rewrite (Rabs_pos_eq (bpow radix2 e)) by apply bpow_ge_0. exact H.
    - rewrite ulp_bpow. apply bpow_le. change (SpecFloat.fexp 53 1024) with (FLT_exp (-1074) 53).
      unfold FLT_exp. lia. }
  replace (e - 53) with (-1 + (e - 52)) by lia. rewrite bpow_plus. change (bpow radix2 (-1)) with (/2)%R.
  apply Rmult_le_compat_l; [lra|exact Hu].
Qed.

Definition infinite (x : double) : Prop := x = S754_infinity false.

(** A product of non-negative finite numbers is the rounded product, or infinite if that is
    too large. *)
Lemma mul_over x y a b : isR x a -> isR y b -> (0 < a)%R -> (0 < b)%R ->
  isR (dmul x y) (rnd (a * b)) \/ infinite (dmul x y) /\ (big <= rnd (a * b))%R.
Proof.
  intros Hx Hy Ha Hb.
  assert (H0 : (0 <= rnd (a * b))%R).
  { rewrite <- (rnd_format 0) by apply generic_format_0. apply rnd_le. apply Rmult_le_pos; lra. }
  destruct (Rlt_or_le (Rabs (rnd (a * b))) big) as [H|H].
  - left. apply isR_mul; assumption.
  - right. rewrite Rabs_pos_eq in H by exact H0. split; [|exact H].
    destruct Hx as (bx & <- & Fx & <-). destruct Hy as (by_ & <- & Fy & <-).
    pose proof (Bmult_correct 53 1024 prec_pos prec_emax mode_NE bx by_) as C.
    rewrite Rlt_bool_false in C.
    + unfold infinite. rewrite mul_eq, C.
      clear C.
      destruct bx as [sx|sx| |sx mx ex Bx]; [exfalso; simpl in Ha; lra|discriminate Fx|discriminate Fx|].
      destruct by_ as [sy|sy| |sy my ey By]; [exfalso; simpl in Hb; lra|discriminate Fy|discriminate Fy|].
      assert (sx = false).
      { destruct sx; [|reflexivity]. exfalso. cbn [B2R] in Ha.
        rewrite (F2R_Zopp radix2 (Zpos mx) ex : F2R (Float radix2 (cond_Zopp true (Zpos mx)) ex) = _) in Ha.
        pose proof (F2R_gt_0 radix2 (Float radix2 (Zpos mx) ex) ltac:(reflexivity)). lra. }
      assert (sy = false).
      { destruct sy; [|reflexivity]. exfalso. cbn [B2R] in Hb.
        rewrite (F2R_Zopp radix2 (Zpos my) ey : F2R (Float radix2 (cond_Zopp true (Zpos my)) ey) = _) in Hb.
        pose proof (F2R_gt_0 radix2 (Float radix2 (Zpos my) ey) ltac:(reflexivity)). lra. }
      subst. reflexivity.
    + fold (rnd (B2R bx * B2R by_)). rewrite Rabs_pos_eq by exact H0. exact H.
Qed.

Lemma isR_big x a : isR x a -> (Rabs a < big)%R.
Proof. intros (b & _ & F & <-). apply abs_B2R_lt_emax. Qed.

Lemma isR_format x a : isR x a -> rnd a = a.
Proof. intros (b & _ & F & <-). apply rnd_format. apply generic_format_B2R. Qed.

(** Errors of sums and products: [a'] approximates [a]. *)
Lemma near_mul a b a' b' ea eb ma mb :
  (Rabs (a' - a) <= ea)%R -> (Rabs (b' - b) <= eb)%R -> (Rabs a <= ma)%R -> (Rabs b' <= mb)%R ->
  (Rabs (a' * b' - a * b) <= ea * mb + ma * eb)%R.
Proof.
  intros H1 H2 H3 H4. replace (a' * b' - a * b)%R with ((a' - a) * b' + a * (b' - b))%R by ring.
  eapply Rle_trans; [apply Rabs_triang|]. rewrite !Rabs_mult.
  apply Rplus_le_compat; apply Rmult_le_compat; auto using Rabs_pos.
Qed.

Lemma near_rnd x y e k : -1000 <= k <= 1000 -> (Rabs (x - y) <= e)%R -> (Rabs x <= bpow radix2 k)%R ->
  (Rabs (rnd x - y) <= e + bpow radix2 (k - 53))%R.
Proof.
  intros Hk H1 H2. replace (rnd x - y)%R with ((rnd x - x) + (x - y))%R by ring.
  eapply Rle_trans; [apply Rabs_triang|]. pose proof (rnd_error x k Hk H2). lra.
Qed.

Lemma near_sub a b a' b' ea eb :
  (Rabs (a' - a) <= ea)%R -> (Rabs (b' - b) <= eb)%R -> (Rabs ((a' - b') - (a - b)) <= ea + eb)%R.
Proof.
  intros H1 H2. replace (a' - b' - (a - b))%R with ((a' - a) + - (b' - b))%R by ring.
  eapply Rle_trans; [apply Rabs_triang|]. rewrite Rabs_Ropp. lra.
Qed.

Lemma add_half_over x a : isR x a -> (0 <= a)%R ->
  isR (dadd x dhalf) (rnd (a + / 2)) \/ infinite (dadd x dhalf) /\ (big <= rnd (a + / 2))%R.
Proof.
  intros Hx Ha.
  assert (H0 : (0 <= rnd (a + / 2))%R).
  { rewrite <- (rnd_format 0) by apply generic_format_0. apply rnd_le. lra. }
  destruct (Rlt_or_le (Rabs (rnd (a + / 2))) big) as [H|H].
  - left. apply isR_add; auto using isR_half.
  - right. rewrite Rabs_pos_eq in H by exact H0. split; [|exact H].
    destruct Hx as (bx & <- & Fx & <-).
    set (hf := @B754_finite 53 1024 false 4503599627370496 (-53) eq_refl).
    assert (Hh : B2R hf = (/ 2)%R) by (unfold hf, B2R, F2R; simpl; lra).
    pose proof (Bplus_correct 53 1024 prec_pos prec_emax mode_NE bx hf Fx eq_refl) as C.
    rewrite Hh in C. rewrite Rlt_bool_false in C.
    + unfold infinite. change dhalf with (B2SF hf). rewrite add_eq. destruct C as (-> & ->). reflexivity.
    + fold (rnd (B2R bx + / 2)). rewrite Rabs_pos_eq by exact H0. exact H.
Qed.
