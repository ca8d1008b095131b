(** Properties of the Haar transform: C73, C93 and C94. *)
From Coq Require Import ZArith List Bool Lia Reals Lra.
From Verif Require Import Base BaseProofs ImgFun Double Edge NumProofs Filter MagProofs Arith Math HaarProofs HaarExact.
From Coq Require Import Floats.SpecFloat.
From Flocq Require Import Core.
Import ListNotations.
Open Scope Z_scope.
Ltac Zify.zify_post_hook ::= Z.div_mod_to_equations.

(** Direct transform into [d], inverse transform of the result into [o]. *)
Definition round_trip (A : arith) (coef : carrier A) (v d o : arr (carrier A)) (w h : Z) : res unit (arr (carrier A)) :=
  do d <- directTransform A coef v d w h; inverseTransform A coef d o w h.

(** Sizes for which the transform exists. *)
Definition even_size (w h : Z) : Prop := 0 < w /\ 0 < h /\ w mod 2 = 0 /\ h mod 2 = 0 /\ w * h < 2 ^ 64.

Lemma round_trip_ok A coef v d o w h : even_size w h -> alen v = w * h -> alen d = w * h -> alen o = w * h ->
  exists r, round_trip A coef v d o w h = Ok r /\ alen r = w * h /\
    forall x y, 0 <= x < w -> 0 <= y < h -> aget r (cell w x y)
      = line_inverse A coef (h / 2) (fun y => line_inverse A coef (w / 2) (fun x =>
          line_direct A coef (h / 2) (fun y => line_direct A coef (w / 2) (fun x => aget v (cell w x y)) x) y) x) y.
Proof.
  intros (W & H & Ew & Eh & S) Lv Ld Lo. change (2 ^ 64) with W64 in S.
  destruct (direct_ok A coef w h W H Ew Eh S v d Lv Ld) as (t & Et & Lt & Vt).
  destruct (inverse_ok A coef w h W H Ew Eh S t o Lt Lo) as (r & Er & Lr & Vr).
  exists r. unfold round_trip. rewrite Et. cbn [bind]. split; [exact Er|]. split; [exact Lr|].
  intros x y Hx Hy. rewrite Vr by assumption. unfold haar_inverse.
  assert (E : forall f g n k, 0 <= k < n -> n mod 2 = 0 -> (forall i, 0 <= i < n -> f i = g i) ->
    line_inverse A coef (n / 2) f k = line_inverse A coef (n / 2) g k).
  { intros f g n k Hk En K. unfold line_inverse. rewrite !K by lia. reflexivity. }
  apply E; auto. intros j Hj. apply E; auto. intros i Hi. rewrite Vt by assumption. reflexivity.
Qed.

Lemma cells_all w h i : 0 < w -> 0 <= i < w * h -> exists x y, 0 <= x < w /\ 0 <= y < h /\ i = cell w x y.
Proof.
  intros W Hi. exists (i mod w), (i / w). unfold cell. pose proof (Z.mod_pos_bound i w W). pose proof (Z.div_mod i w ltac:(lia)).
  split; [assumption|]. split; [|rewrite Z.mul_comm; assumption].
  split; [apply Z.div_pos; lia|]. apply Z.div_lt_upper_bound; lia.
Qed.

(** ** C73 *)

(** In exact arithmetic; [d] and [o] are the caller's vectors, their contents do not matter. *)
Theorem C73_round_trip (v d o : arr R) w h :
  even_size w h -> alen v = w * h -> alen d = w * h -> alen o = w * h ->
  exists r : arr R, round_trip exact (1 / sqrt 2)%R v d o w h = Ok r /\ alen r = w * h /\
    forall i, 0 <= i < w * h -> aget r i = aget v i.
Proof.
  intros S Lv Ld Lo. pose proof S as (W & H & Ew & Eh & _).
  destruct (round_trip_ok exact (1 / sqrt 2)%R v d o w h S Lv Ld Lo) as (r & E & L & V).
  exists r. split; [exact E|]. split; [exact L|]. intros i Hi.
  destruct (cells_all w h i W Hi) as (x & y & Hx & Hy & ->). rewrite V by assumption.
  etransitivity; [exact (haar_exact (1 / sqrt 2)%R (fun x y => aget v (cell w x y)) w h x y Ew Eh Hx Hy)|].
  fold c2. rewrite c2_square. ring.
Qed.
Example C73_case : exists r : arr R,
  round_trip exact (1 / sqrt 2)%R (mkArr 24 (fun i => IZR (i * i))) (mkArr 24 (fun _ => 0%R)) (mkArr 24 (fun i => IZR i)) 4 6 = Ok r /\
  aget r 13 = 169%R.
Proof.
  destruct (C73_round_trip (mkArr 24 (fun i => IZR (i * i))) (mkArr 24 (fun _ => 0%R)) (mkArr 24 (fun i => IZR i)) 4 6) as (r & E & _ & V);
    try reflexivity. { unfold even_size. lia. }
  exists r. split; [exact E|]. rewrite V by lia. reflexivity.
Qed.

(** float and double: values up to 255 in magnitude come back to within 0.001, for all sizes. *)
Theorem C73_ieee T (v d o : arr num) (a : Z -> R) w h : real_type T ->
  even_size w h -> alen v = w * h -> alen d = w * h -> alen o = w * h ->
  (forall i, 0 <= i < w * h -> isN T (aget v i) (a i) /\ (Rabs (a i) <= 255)%R) ->
  exists r, round_trip (ieee T) (tcast T coefficient_f) v d o w h = Ok r /\ alen r = w * h /\
    forall i, 0 <= i < w * h -> exists b, isN T (aget r i) b /\ (Rabs (b - a i) <= 0.001)%R.
Proof.
  intros HT S Lv Ld Lo Ha. pose proof S as (W & H & Ew & Eh & _).
  destruct (round_trip_ok (ieee T) (tcast T coefficient_f) v d o w h S Lv Ld Lo) as (r & E & L & V).
  exists r. split; [exact E|]. split; [exact L|]. intros i Hi.
  destruct (cells_all w h i W Hi) as (x & y & Hx & Hy & ->). rewrite V by assumption.
  apply (haar_near T w h (fun x y => aget v (cell w x y)) (fun x y => a (cell w x y)) HT Ew Eh); auto.
  intros x' y' Hx' Hy'. apply Ha. apply cell_range; assumption.
Qed.
Example C73_case_ieee : exists r,
  round_trip (ieee FLOAT) (tcast FLOAT coefficient_f) (mkArr 24 (fun i => tofZ FLOAT (10 * i)))
    (mkArr 24 (fun _ => tofZ FLOAT 0)) (mkArr 24 (fun i => tofZ FLOAT 7)) 4 6 = Ok r /\
  exists b, isN FLOAT (aget r 13) b /\ (Rabs (b - 130) <= 0.001)%R.
Proof.
  destruct (C73_ieee FLOAT (mkArr 24 (fun i => tofZ FLOAT (10 * i))) (mkArr 24 (fun _ => tofZ FLOAT 0)) (mkArr 24 (fun i => tofZ FLOAT 7))
    (fun i => IZR (10 * i)) 4 6) as (r & E & _ & V); try reflexivity; try (left; reflexivity).
  - unfold even_size. lia.
  - intros i Hi. cbn [aget]. split.
    + assert (B : Z.abs (10 * i) <= 16777216) by lia.
      pose proof (rndN_IZR FLOAT (10 * i) (or_introl eq_refl) B) as Q. rewrite <- Q. apply (isT_ofZ 24 128); lia.
    + rewrite <- abs_IZR. apply IZR_le. lia.
  - exists r. split; [exact E|]. apply (V 13). lia.
Qed.
(** Other sizes are rejected. *)
Theorem C73_rejects A coef v d w h : 0 <= w -> 0 <= h -> w * h < 2 ^ 64 ->
  ~ (0 < w /\ 0 < h /\ w mod 2 = 0 /\ h mod 2 = 0 /\ alen v = w * h /\ alen d = w * h) ->
  directTransform A coef v d w h = Throw tt /\ inverseTransform A coef v d w h = Throw tt.
Proof.
  intros W H S N.
  assert (E : haar_invalid A v d w h = true).
  { unfold haar_invalid. rewrite u64_small by (change W64 with (2 ^ 64); nia).
    destruct (alen v =? 0) eqn:E0; [reflexivity|]. destruct (alen v =? alen d) eqn:E1; [|reflexivity].
    destruct (alen v =? w * h) eqn:E2; [|reflexivity]. destruct (w mod 2 =? 0) eqn:E3; [|reflexivity].
    destruct (h mod 2 =? 0) eqn:E4; [|reflexivity]. exfalso. apply N.
    apply Z.eqb_eq in E1, E2. apply Z.eqb_neq in E0. repeat split; try lia; nia. }
  unfold directTransform, inverseTransform. rewrite E. auto.
Qed.
Print Assumptions C73_round_trip.
Print Assumptions C73_ieee.
Print Assumptions C73_rejects.

(** ** C93 *)

(** pvmath::isEqual for double: std::abs( a - b ) < 1e-9 *)
Definition equal_d (a b : num) : bool := SFltb (SFabs (tsub DOUBLE a b)) (S754_finite false 4835703278458517 (-82)).

(** A matrix of doubles comes back as far as the library can tell doubles apart. *)
Definition C93_claim : Prop := forall v d o w h,
  even_size w h -> alen v = w * h -> alen d = w * h -> alen o = w * h ->
  (forall i, 0 <= i < w * h -> exists z, 0 <= z <= 255 /\ aget v i = tofZ DOUBLE z) ->
  forall r, round_trip (ieee DOUBLE) (tcast DOUBLE coefficient_f) v d o w h = Ok r ->
  forall i, 0 <= i < w * h -> equal_d (aget r i) (aget v i) = true.

Definition white : arr num := mkArr 4 (fun _ : Z => tofZ DOUBLE 255).
(** 2 x 2 pixels of value 255: the coefficient is computed in float. *)
Theorem C93_claim_refuted : ~ C93_claim.
Proof.
  intros C.
  assert (F : match round_trip (ieee DOUBLE) (tcast DOUBLE coefficient_f) white white white 2 2 with
              | Ok r => equal_d (aget r 0) (aget white 0) | _ => true end = false) by (vm_compute; reflexivity).
  assert (S : even_size 2 2) by (unfold even_size; lia).
  destruct (round_trip_ok (ieee DOUBLE) (tcast DOUBLE coefficient_f) white white white 2 2 S eq_refl eq_refl eq_refl) as (r & E & _).
  rewrite E in F.
  assert (P : forall i, 0 <= i < 2 * 2 -> exists z, 0 <= z <= 255 /\ aget white i = tofZ DOUBLE z).
  { intros i Hi. exists 255. split; [lia|reflexivity]. }
  assert (Z0 : 0 <= 0 < 2 * 2) by lia.
  exact (eq_true_false_abs _ (C white white white 2 2 S eq_refl eq_refl eq_refl P r E 0 Z0) F).
Qed.
(** It does with a coefficient computed in double. *)
Example C93_double_coefficient :
  let c := tdiv DOUBLE (tofZ DOUBLE 1) (tsqrt DOUBLE (tofZ DOUBLE 2)) in let v := mkArr 4 (fun _ : Z => tofZ DOUBLE 255) in
  match round_trip (ieee DOUBLE) c v v v 2 2 with Ok r => equal_d (aget r 0) (aget v 0) = true | _ => False end.
Proof. vm_compute. reflexivity. Qed.
Print Assumptions C93_claim_refuted.

(** ** C94 *)

(** Every accepted call stays inside its vectors. *)
Definition C94_claim : Prop := forall A coef v d w h, 0 <= w < 2 ^ 64 -> 0 <= h < 2 ^ 64 ->
  directTransform A coef v d w h <> UB /\ inverseTransform A coef v d w h <> UB.

(** width * height is computed modulo 2^64. *)
Lemma walk_first_ub {E T} n cur ss pend (body : list ptr -> T -> res E T) t :
  ptr_eqb (nth 0 cur nullp) pend = false -> body cur t = UB -> walk n cur ss pend body t = UB.
Proof.
  intros H1 H2. unfold walk, fuel_of. cbn [loop fst snd]. rewrite H1. cbn [negb]. rewrite H2. reflexivity.
Qed.
Definition integers : arith := mkArith Z (fun z => z) Z.add Z.sub Z.mul Z.div Z.opp Z.abs Z.ltb.
Definition four : arr (carrier integers) := mkArr 4 (fun _ : Z => 0%Z).
Lemma six_columns h : haar_invalid integers four four 6 h = false -> directTransform integers 1 four four 6 h = UB.
Proof.
  intros H. unfold directTransform. rewrite H. rewrite walk_first_ub; [reflexivity|reflexivity|]. vm_compute. reflexivity.
Qed.
Theorem C94_claim_refuted : ~ C94_claim.
Proof.
  intros C. destruct (C integers 1 four four 6 6148914691236517206) as [N _]; [lia|lia|].
  apply N, six_columns. reflexivity.
Qed.
Theorem C94_safe_partial A coef v d w h : 0 <= w -> 0 <= h -> w * h < 2 ^ 64 ->
  (exists r s, directTransform A coef v d w h = Ok r /\ inverseTransform A coef v d w h = Ok s) \/
  (directTransform A coef v d w h = Throw tt /\ inverseTransform A coef v d w h = Throw tt).
Proof.
  intros W H S.
  destruct (Z_lt_dec 0 w); [|right; apply C73_rejects; auto; lia].
  destruct (Z_lt_dec 0 h); [|right; apply C73_rejects; auto; lia].
  destruct (Z.eq_dec (w mod 2) 0); [|right; apply C73_rejects; auto; lia].
  destruct (Z.eq_dec (h mod 2) 0); [|right; apply C73_rejects; auto; lia].
  destruct (Z.eq_dec (alen v) (w * h)); [|right; apply C73_rejects; auto; lia].
  destruct (Z.eq_dec (alen d) (w * h)); [|right; apply C73_rejects; auto; lia].
  left. destruct (direct_ok A coef w h l l0 e e0 S v d e1 e2) as (r & E & _).
  destruct (inverse_ok A coef w h l l0 e e0 S v d e1 e2) as (s & E' & _). eauto.
Qed.
Print Assumptions C94_claim_refuted.
Print Assumptions C94_safe_partial.
