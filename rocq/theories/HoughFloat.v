(** The Hough transform on float and double: the sliding window always moves. *)
From Coq Require Import ZArith List Bool Lia Reals Lra Permutation Floats.SpecFloat.
From Flocq Require Import Core IEEE754.BinarySingleNaN.
From Verif Require Import Base BaseProofs Double Edge Filter NumProofs MagProofs Arith Math HaarProofs HoughProofs.
Import ListNotations.
Open Scope Z_scope.

Definition nonneg (x : num) : Prop :=
  match x with S754_infinity true | S754_finite true _ _ => False | _ => True end.

Section FORMAT.
Variables prec emax : Z.
Hypothesis Hprec : 2 <= prec.
Hypothesis Hemax : prec < emax.
#[local] Instance Pp2 : FLX.Prec_gt_0 prec := Pp prec Hprec.
#[local] Instance Pe2 : Prec_lt_emax prec emax := Pe prec emax Hemax.

(** a number of the type *)
Definition valid (x : num) : Prop := exists b : binary_float prec emax, B2SF b = x.

Lemma valid_add x y : valid x -> valid y -> valid (tadd (prec, emax) x y).
Proof. intros (a & <-) (b & <-). exists (Bplus mode_NE a b). symmetry. apply add_eqT. Qed.
Lemma valid_mul x y : valid x -> valid y -> valid (tmul (prec, emax) x y).
Proof. intros (a & <-) (b & <-). exists (Bmult mode_NE a b). symmetry. apply mul_eqT. Qed.

Lemma not_less_self x : SFltb x x = false.
Proof.
  unfold SFltb, SFcompare. destruct x as [s|[|]| |[|] m e]; try reflexivity; rewrite Z.compare_refl;
    rewrite Pos.compare_cont_refl; reflexivity.
Qed.

Lemma add_not_less r x : valid r -> valid x -> nonneg r -> SFltb (tadd (prec, emax) r x) x = false.
Proof.
  intros (a & <-) (b & <-) Hr. rewrite (add_eqT prec emax Hprec Hemax).
  destruct a as [sa|[|]| |[|] ma ea Ba]; try destruct Hr; destruct b as [sb|[|]| |sb mb eb Bb]; try reflexivity;
    try (cbn; destruct (Bool.eqb _ _); reflexivity).
  - cbn. apply (not_less_self (S754_finite sb mb eb)).
  - set (a := B754_finite false ma ea Ba). set (b := B754_finite sb mb eb Bb).
    pose proof (Bplus_correct prec emax Pp2 Pe2 mode_NE a b eq_refl eq_refl) as C.
    assert (Ha : (0 <= B2R a)%R).
    { cbn. apply F2R_ge_0. cbn. lia. }
    destruct (Rlt_bool _ _).
    + destruct C as (C1 & C2 & _). change (Bltb (Bplus mode_NE a b) b = false). rewrite Bltb_correct by auto. rewrite C1.
      apply Rlt_bool_false.
      replace (B2R b) with (rndT prec emax (B2R b)) at 1 by (apply rndT_format; auto; apply generic_format_B2R).
      apply rndT_le; auto. change (B2R b <= B2R a + B2R b)%R. lra.
    + destruct C as (C1 & _). change (SFltb (B2SF (Bplus mode_NE a b)) (B2SF b) = false). rewrite C1. reflexivity.
Qed.

Lemma mul_nonneg x y : valid x -> valid y -> nonneg x -> nonneg y -> nonneg (tmul (prec, emax) x y).
Proof.
  intros (a & <-) (b & <-) Hx Hy. rewrite (mul_eqT prec emax Hprec Hemax).
  destruct a as [sa|[|]| |[|] ma ea Ba]; try destruct Hx; destruct b as [sb|[|]| |[|] mb eb Bb]; try destruct Hy; try exact I.
  set (a := B754_finite false ma ea Ba). set (b := B754_finite false mb eb Bb).
  pose proof (Bmult_correct prec emax Pp2 Pe2 mode_NE a b) as C. destruct (Rlt_bool _ _).
  - destruct C as (_ & C2 & C3). cbn [is_finite a b andb] in C2.
    change (nonneg (B2SF (Bmult mode_NE a b))). destruct (Bmult mode_NE a b) as [s|[|]| |[|] m e B]; try exact I; try discriminate C2. specialize (C3 eq_refl). discriminate C3.
  - change (nonneg (B2SF (Bmult mode_NE a b))). rewrite C. exact I.
Qed.

Lemma not_less_nonneg x m e : SFltb x (S754_finite false m e) = false -> nonneg x.
Proof. destruct x as [s|[|]| |[|] m' e']; cbn; auto; discriminate. Qed.
End FORMAT.

Section RETURNS.
Variable T : ftype.
Hypothesis HT : real_type T.
Notation validT := (valid (fst T) (snd T)).
Variables cos sin : num -> num.
Variable sort : list num -> res unit (list num).
Hypothesis Hcos : forall x, validT (cos x).
Hypothesis Hsin : forall x, validT (sin x).
Hypothesis Hsort : forall l, exists l', sort l = Ok l' /\ Permutation l l'.

Lemma hough_returns input a0 tol step line on0 off0 n :
  2 <= Z.of_nat (length input) < W64 -> (forall p, In p input -> validT (fst p) /\ validT (snd p)) -> validT line ->
  let low := tcast T min_angle_f in
  let step' := if SFltb step low then low else step in
  let tol' := if SFltb tol low then low else tol in
  ieee_steps T (if SFltb tol' step' then step' else tol') step' = Some n -> 0 <= n < INT_MAX ->
  exists on off, runHoughTransform (ieee T) (ieee_lib T cos sin sort) input a0 tol step line on0 off0 = Ok (true, on, off).
Proof.
  intros Hlen Hp Hl low step' tol' Es Hn. unfold runHoughTransform.
  assert (Hp1 : 2 <= fst T) by (destruct HT as [-> | ->]; cbn; lia).
  assert (Hp2 : fst T < snd T) by (destruct HT as [-> | ->]; cbn; lia).
  assert (ET : (fst T, snd T) = T) by (destruct T; reflexivity).
  assert (E0 : (Z.of_nat (@length (carrier (ieee T) * carrier (ieee T)) input) <? 2) = false) by (apply Z.ltb_ge; exact (proj1 Hlen)).
  rewrite E0. cbv zeta. change (lsteps (ieee_lib T cos sin sort)) with (ieee_steps T).
  change (lmin_angle (ieee_lib T cos sin sort)) with low. change (alt (ieee T)) with SFltb. 
  match goal with |- context [ieee_steps T ?x ?y] =>
    change (ieee_steps T x y) with (ieee_steps T (if SFltb tol' step' then step' else tol') step') end. rewrite Es.
  set (line' := if SFltb line (lmin_tol (ieee_lib T cos sin sort)) then lmin_tol (ieee_lib T cos sin sort) else line).
  set (range := amul (ieee T) line' (aZ (ieee T) 2)).
  assert (Bmin : exists m e, lmin_tol (ieee_lib T cos sin sort) = S754_finite false m e /\ bounded (fst T) (snd T) m e = true).
  { destruct HT as [-> | ->]; vm_compute; eexists _, _; split; reflexivity. }
  destruct Bmin as (mm & me & Em & Bm).
  assert (Vl : validT line').
  { unfold line'. destruct (SFltb line (lmin_tol (ieee_lib T cos sin sort))); [|exact Hl]. rewrite Em. exists (B754_finite false mm me Bm). reflexivity. }
  assert (Nl : nonneg line').
  { unfold line'. destruct (SFltb line (lmin_tol (ieee_lib T cos sin sort))) eqn:El; [rewrite Em; exact I|]. rewrite Em in El. exact (not_less_nonneg _ _ _ El). }
  assert (V2 : validT (tofZ T 2) /\ nonneg (tofZ T 2)).
  { split.
    - destruct (isT_ofZ (fst T) (snd T) Hp1 Hp2 ltac:(destruct HT as [-> | ->]; cbn; lia) 2 ltac:(lia)) as (b & Eb & _). rewrite ET in Eb. exists b. exact Eb.
    - destruct HT as [-> | ->]; vm_compute; exact I. }
  destruct V2 as [V2 N2].
  assert (Vr : validT range) by (unfold range; cbn [amul aZ ieee]; rewrite <- ET at 3; apply valid_mul; auto).
  assert (Nr : nonneg range) by (unfold range; cbn [amul aZ ieee]; rewrite <- ET at 1; apply mul_nonneg; auto).
  assert (Hlen' : 1 <= Z.of_nat (length input) < W64) by lia.
  destruct (search_ok (ieee T) (ieee_lib T cos sin sort) input range Hlen' a0 step' n Hn) as (bid & hi & ds & i & E & _).
  - intros k _. set (a := angle_seq _ _ _ _). destruct (Hsort (ds_at (ieee T) (ieee_lib T cos sin sort) input a)) as (l' & El & P).
    exists l'. split; [exact El|]. split.
    + etransitivity; [symmetry; exact (Permutation_length P)|]. unfold ds_at. apply map_length.
    + intros x Hx. apply (Permutation_in x (Permutation_sym P)) in Hx. unfold ds_at in Hx. apply in_map_iff in Hx as (p & <- & Hpi).
      destruct (Hp p Hpi) as [V1 V3]. cbn [alt aadd ieee]. rewrite <- ET at 1. apply add_not_less; auto.
      unfold distance. cbn [aadd amul ieee lsin lcos ieee_lib]. rewrite <- ET at 3. apply valid_add; auto; rewrite <- ET at 3; apply valid_mul; auto.
  - match goal with |- context [search ?A ?B ?C ?D ?F ?G ?H] =>
      change (search A B C D F G H) with (search (ieee T) (ieee_lib T cos sin sort) input a0 step' range n) end.
    rewrite E. cbn [bind]. eexists _, _. reflexivity.
Qed.
End RETURNS.
