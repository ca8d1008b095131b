(** Proofs about Shift and Rotate. *)
From Coq Require Import ZArith List Bool Reals Lia Lra.
From Flocq Require Import Core IEEE754.BinarySingleNaN.
From Verif Require Import Base Image Spec BaseProofs ImgFun ImgLemmas ImgProofs Double DoubleProofs Edge NumProofs
  ReduceProofs Warp.
Import ListNotations.
Open Scope Z_scope.

(** ** The whole part and the rest of a double *)

Lemma frac_format x r : isR x r ->
  generic_format radix2 (SpecFloat.fexp 53 1024) (r - IZR (Ztrunc r)).
Proof.
  intros (b & _ & Fb & <-). destruct b as [s|s| |s m e Hb]; try discriminate Fb.
  - cbn [B2R]. rewrite (Ztrunc_IZR 0). rewrite Rminus_0_r. apply generic_format_0.
  - cbn [B2R]. set (M := cond_Zopp s (Zpos m)).
    assert (HM : Z.abs M < 2 ^ 53 /\ -1074 <= e).
    { clear - Hb. pose proof Hb as Hc. unfold SpecFloat.bounded in Hc.
      apply andb_true_iff in Hc as [H1 H2].
      unfold SpecFloat.canonical_mantissa in H1. apply Zeq_bool_eq in H1.
      unfold SpecFloat.fexp, SpecFloat.emin in H1.
      assert (Hd : Z.pos (SpecFloat.digits2_pos m) <= 53) by lia.
      split; [|lia].
      assert (Z.pos m < 2 ^ 53).
      { rewrite <- (Z.abs_eq (Z.pos m)) by lia.
        change (2 ^ 53) with (Zpower radix2 53).
        eapply Z.lt_le_trans with (Zpower radix2 (Zdigits radix2 (Z.pos m))).
        - apply Zpower_gt_Zdigits. lia.
        - apply Zpower_le. rewrite <- Digits.Zpos_digits2_pos. exact Hd. }
      unfold M. destruct s; cbn [cond_Zopp]; lia. }
    destruct (Z_le_gt_dec 0 e) as [He|He].
    + replace (F2R (Float radix2 M e)) with (IZR (M * 2 ^ e)).
      * rewrite Ztrunc_IZR, Rminus_diag_eq by reflexivity. apply generic_format_0.
      * unfold F2R. cbn [Fnum Fexp]. rewrite mult_IZR. f_equal.
        change 2 with (radix_val radix2). rewrite IZR_Zpower by lia. reflexivity.
    + set (T := Ztrunc (F2R (Float radix2 M e))).
      assert (HT : F2R (Float radix2 (M - T * 2 ^ (- e)) e) = (F2R (Float radix2 M e) - IZR T)%R).
      { unfold F2R. cbn [Fnum Fexp]. rewrite minus_IZR, mult_IZR. rewrite Rmult_minus_distr_r. f_equal.
        change 2 with (radix_val radix2). rewrite IZR_Zpower by lia.
        rewrite Rmult_assoc, <- bpow_plus. replace (- e + e) with 0 by lia. simpl. ring. }
      rewrite <- HT. apply (formatT_F2R 53 1024); [lia|lia|].
      assert (Hf : (Rabs (F2R (Float radix2 M e) - IZR T) <= Rabs (F2R (Float radix2 M e)))%R).
      { unfold T. destruct (Rle_or_lt 0 (F2R (Float radix2 M e))) as [H0|H0].
        - rewrite Ztrunc_floor by exact H0.
          pose proof (Zfloor_lb (F2R (Float radix2 M e))). pose proof (Zfloor_ub (F2R (Float radix2 M e))).
          assert (0 <= Zfloor (F2R (Float radix2 M e))) by (apply Zfloor_lub; exact H0).
          assert (0 <= IZR (Zfloor (F2R (Float radix2 M e))))%R by (apply IZR_le; lia).
          rewrite !Rabs_pos_eq; lra.
        - rewrite Ztrunc_ceil by lra.
          pose proof (Zceil_ub (F2R (Float radix2 M e))).
          assert (Zceil (F2R (Float radix2 M e)) <= 0) by (apply Zceil_glb; lra).
          assert (IZR (Zceil (F2R (Float radix2 M e))) <= 0)%R by (apply IZR_le; lia).
          rewrite !Rabs_left1; lra. }
      rewrite <- HT in Hf. rewrite <- !F2R_Zabs in Hf. apply le_F2R in Hf. lia.
Qed.

Lemma isR_frac x r n : isR x r -> n = - Ztrunc r -> Z.abs n <= 2 ^ 53 ->
  isR (dadd x (dofZ n)) (r - IZR (Ztrunc r)).
Proof.
  intros Hx -> Hn. pose proof (frac_format x r Hx) as F.
  assert (E : (r - IZR (Ztrunc r) = r + IZR (- Ztrunc r))%R) by (rewrite opp_IZR; lra).
  rewrite E. rewrite <- (rnd_format (r + _)) by (rewrite <- E; exact F).
  apply isR_add; auto using isR_ofZ. rewrite <- E. rewrite rnd_format by exact F.
  apply (bound_big _ 0); [lia|]. simpl bpow.
  apply Rabs_le. destruct (Rle_or_lt 0 r) as [H0|H0].
  - rewrite Ztrunc_floor by exact H0. pose proof (Zfloor_lb r). pose proof (Zfloor_ub r). lra.
  - rewrite Ztrunc_ceil by lra. pose proof (Zceil_ub r). pose proof (Zceil_lb r). lra.
Qed.

(** ** The parts of the shift *)

Definition whole (r : R) : Prop := r = IZR (Ztrunc r).

Lemma s32_ok {E} z : - I32 <= z < I32 -> @s32 E z = Ok z.
Proof.
  intros H. unfold s32. destruct (Z.leb_spec (- I32) z); [|lia]. destruct (Z.ltb_spec z I32); [reflexivity|lia].
Qed.

Lemma trunc_range r k : (Rabs r <= IZR k)%R -> Z.abs (Ztrunc r) <= k.
Proof.
  intros H. rewrite <- Ztrunc_abs. apply le_IZR. eapply Rle_trans; [|exact H].
  rewrite Ztrunc_floor by apply Rabs_pos. apply Zfloor_lb.
Qed.

Lemma floor_opp r : Zfloor (- r) = - Zceil r.
Proof. unfold Zceil. lia. Qed.

Lemma shift_parts_value {E} s r : isR s r -> (Rabs r <= IZR (I32 - 1))%R ->
  exists c rc, @shift_parts E s = Ok (Zfloor (- r), c) /\ isR c rc /\ (0 <= rc <= 1)%R /\
    (whole r -> rc = 0%R) /\
    (~ whole r -> (Rabs (rc - (1 - (- r - IZR (Zfloor (- r))))) <= bpow radix2 (-53))%R).
Proof.
  intros Hs Hr. pose proof (trunc_range r _ Hr) as Ht. unfold I32 in Ht.
  unfold shift_parts, cast_s32. rewrite (isR_trunc _ _ Hs).
  rewrite s32_ok by (unfold I32; lia). cbn [bind]. rewrite s32_ok by (unfold I32; lia). cbn [bind].
  pose proof (isR_frac s r (- Ztrunc r) Hs eq_refl ltac:(lia)) as Hf.
  set (f := dadd s (dofZ (- Ztrunc r))) in *. set (t := Ztrunc r) in *.
  assert (Z0 : isR (dofZ 0) (IZR 0)) by (apply isR_ofZ; lia).
  assert (Z1 : isR (dofZ 1) (IZR 1)) by (apply isR_ofZ; lia).
  rewrite (isR_lt _ _ _ _ Z0 Hf), (isR_lt _ _ _ _ Hf Z0).
  destruct (Rlt_bool_spec (IZR 0) (r - IZR t)) as [Hp|Hp].
  - rewrite Rlt_bool_false by lra.
    assert (H0 : (0 <= r)%R).
    { destruct (Rle_or_lt 0 r) as [H|H]; [exact H|]. exfalso. unfold t in Hp.
      rewrite Ztrunc_ceil in Hp by lra. pose proof (Zceil_ub r). lra. }
    assert (Hlt : (r < IZR t + 1)%R).
    { unfold t. rewrite Ztrunc_floor by exact H0. apply Zfloor_ub. }
    assert (En : Zfloor (- r) = - t - 1).
    { apply Zfloor_imp. rewrite plus_IZR, minus_IZR, opp_IZR. lra. }
    exists f, (r - IZR t)%R. split; [rewrite En; reflexivity|]. split; [exact Hf|]. split; [lra|].
    split; [unfold whole; fold t; lra|]. intros _. rewrite En, minus_IZR, opp_IZR.
    replace (r - IZR t - (1 - (- r - (- IZR t - 1))))%R with 0%R by ring. rewrite Rabs_R0. apply bpow_ge_0.
  - destruct (Rlt_bool_spec (r - IZR t) (IZR 0)) as [Hn|Hn].
    + assert (H0 : (r < 0)%R).
      { destruct (Rle_or_lt 0 r) as [H|H]; [|exact H]. exfalso. unfold t in Hn.
        rewrite Ztrunc_floor in Hn by exact H. pose proof (Zfloor_lb r). lra. }
      assert (Hgt : (IZR t - 1 < r)%R).
      { unfold t. rewrite Ztrunc_ceil by lra. pose proof (Zceil_lb r). lra. }
      assert (En : Zfloor (- r) = - t).
      { apply Zfloor_imp. rewrite plus_IZR, opp_IZR. lra. }
      assert (Hb : (Rabs (1 + (r - IZR t)) <= bpow radix2 0)%R).
      { simpl bpow. apply Rabs_le. lra. }
      exists (dadd (dofZ 1) f), (rnd (1 + (r - IZR t))).
      split; [rewrite En; reflexivity|]. split.
      { apply isR_add; auto. apply (bound_big _ 0); [lia|]. apply rnd_bound; [lia|exact Hb]. }
      split.
      { split.
        - rewrite <- (rnd_format 0) by apply generic_format_0. apply rnd_le. lra.
        - pose proof (rnd_bound _ 0 ltac:(lia) Hb) as B. simpl bpow in B. apply Rabs_le_inv in B. lra. }
      split; [unfold whole; fold t; lra|]. intros _. rewrite En, opp_IZR.
      replace (1 - (- r - - IZR t))%R with (1 + (r - IZR t))%R by ring.
      apply (rnd_error _ 0); [lia|exact Hb].
    + assert (Er : r = IZR t) by lra.
      assert (En : Zfloor (- r) = - t) by (rewrite Er, <- opp_IZR; apply Zfloor_IZR).
      exists f, 0%R. split; [rewrite En; reflexivity|]. split; [replace 0%R with (r - IZR t)%R by lra; exact Hf|].
      split; [lra|]. split; [reflexivity|]. intros H. destruct H. unfold whole. exact Er.
Qed.

Definition tiny : R := bpow radix2 (-30).
Lemma tiny_val : tiny = (/ 1073741824)%R.
Proof. unfold tiny. simpl. lra. Qed.

Lemma rnd_pos x : (0 <= x)%R -> (0 <= rnd x)%R.
Proof. intros H. rewrite <- (rnd_format 0) by apply generic_format_0. apply rnd_le. exact H. Qed.

Lemma bpow_small a : a <= -38 -> (bpow radix2 a <= / 274877906944)%R.
Proof.
  intros H. apply Rle_trans with (bpow radix2 (-38)); [apply bpow_le; lia|]. simpl. lra.
Qed.

Lemma shift_coeff_value {E} a b ra rb : isR a ra -> isR b rb -> (0 <= ra <= 1)%R -> (0 <= rb <= 1)%R ->
  exists q, @shift_coeff E a b = Ok q /\ 0 <= q <= 16384 /\ (Rabs (IZR q - 16384 * (ra * rb)) <= / 2 + tiny)%R.
Proof.
  intros Ha Hb Ra Rb. unfold shift_coeff.
  assert (Pab : (0 <= ra * rb <= 1)%R) by nra.
  assert (B1 : (Rabs (ra * rb) <= bpow radix2 0)%R) by (simpl bpow; apply Rabs_le; lra).
  pose proof (rnd_error _ 0 ltac:(lia) B1) as E1. pose proof (rnd_bound _ 0 ltac:(lia) B1) as B2.
  pose proof (rnd_pos (ra * rb) ltac:(lra)) as P1. set (p := rnd (ra * rb)) in *.
  simpl (bpow radix2 0) in B2. rewrite Rabs_pos_eq in B2 by exact P1.
  assert (I1 : isR (dmul a b) p).
  { apply isR_mul; auto. fold p. apply (bound_big _ 0); [lia|]. simpl bpow. rewrite Rabs_pos_eq; lra. }
  assert (H14 : bpow radix2 14 = 16384%R) by (simpl; lra).
  assert (B3 : (Rabs (p * IZR 16384) <= bpow radix2 14)%R).
  { rewrite H14. rewrite Rabs_pos_eq; lra. }
  pose proof (rnd_error _ 14 ltac:(lia) B3) as E2. pose proof (rnd_bound _ 14 ltac:(lia) B3) as B4.
  pose proof (rnd_pos (p * IZR 16384) ltac:(lra)) as P2.
  assert (I2 : isR (dmul (dmul a b) (dofZ 16384)) (rnd (p * IZR 16384))).
  { apply isR_mul; auto. - apply isR_ofZ. lia. - apply (bound_big _ 14); [lia|exact B4]. }
  set (u := rnd (p * IZR 16384)) in *. rewrite H14 in B4. rewrite Rabs_pos_eq in B4 by exact P2.
  assert (B5 : (Rabs (u + / 2) <= bpow radix2 15)%R).
  { replace (bpow radix2 15) with 32768%R by (simpl; lra). rewrite Rabs_pos_eq; lra. }
  pose proof (rnd_error _ 15 ltac:(lia) B5) as E3. pose proof (rnd_bound _ 15 ltac:(lia) B5) as B6.
  pose proof (rnd_pos (u + / 2) ltac:(lra)) as P3.
  assert (I3 : isR (dadd (dmul (dmul a b) (dofZ 16384)) dhalf) (rnd (u + / 2))).
  { apply isR_add; auto using isR_half. apply (bound_big _ 15); [lia|exact B6]. }
  assert (U : (rnd (u + / 2) <= 16384 + / 2)%R).
  { apply Rle_trans with (rnd (IZR 32769 * bpow radix2 (-1))).
    - apply rnd_le. simpl. lra.
    - rewrite rnd_format; [simpl; lra|].
      change (IZR 32769 * bpow radix2 (-1))%R with (F2R (Float radix2 32769 (-1))).
      apply (formatT_F2R 53 1024); lia. }
  set (v := rnd (u + / 2)) in *.
  unfold cast_to. rewrite (isR_trunc _ _ I3). rewrite Ztrunc_floor by exact P3.
  pose proof (Zfloor_lb v) as F1. pose proof (Zfloor_ub v) as F2.
  assert (Q0 : 0 <= Zfloor v) by (apply Zfloor_lub; exact P3).
  assert (Q1 : Zfloor v < 16385).
  { apply lt_IZR. lra. }
  unfold W32. destruct (Z.leb_spec 0 (Zfloor v)); [|lia].
  destruct (Z.ltb_spec (Zfloor v) 4294967296); [|lia]. cbn [andb].
  exists (Zfloor v). split; [reflexivity|]. split; [lia|].
  assert (S1 : (bpow radix2 (0 - 53) <= / 9007199254740992)%R) by (simpl; lra). pose proof (bpow_small (14 - 53) ltac:(lia)) as S2.
  pose proof (bpow_small (15 - 53) ltac:(lia)) as S3. rewrite tiny_val.
  apply Rabs_le_inv in E1, E2, E3. apply Rabs_le. split; lra.
Qed.

(** ** Writing rows of a region *)

Section ROWS.
Context {E : Type}.
Variable m : mem.                  (* the memory before the call *)
Variable cell : Z -> Z -> ptr.     (* row, column *)
Variables (h w : Z).
Hypothesis cell_in : forall j i, 0 <= j < h -> 0 <= i < w -> inb m (cell j i) = true.
Hypothesis cell_one : forall j i j' i', 0 <= j < h -> 0 <= i < w -> 0 <= j' < h -> 0 <= i' < w ->
  cell j i = cell j' i' -> j = j' /\ i = i'.

(** The cells [a] to [b] of row [j] were set, nothing else changed. *)
Definition seg (r : res E mem) (t : mem) (j a b : Z) (v : Z -> Z) : Prop :=
  exists t', r = Ok t' /\ same_len t t' /\
    (forall i, a <= i < b -> get t' (cell j i) = v i) /\
    (forall q, (forall i, a <= i < b -> q <> cell j i) -> get t' q = get t q).

Lemma seg_empty t j a v : seg (Ok t) t j a a v.
Proof. exists t. split; [reflexivity|]. split; [apply same_len_refl|]. split; [intros; lia|auto]. Qed.

Lemma seg_bind r t j a b c d v u k : seg r t j a b v -> 0 <= j < h -> 0 <= a -> d <= w ->
  a <= c <= b -> b <= d ->
  (forall t', same_len t t' -> (forall q, (forall i, a <= i < b -> q <> cell j i) -> get t' q = get t q) ->
     seg (k t') t' j c d u) ->
  (forall i, a <= i < c -> u i = v i) ->
  seg (bind r k) t j a d u.
Proof.
  intros (t' & -> & L & V & F) Hj Ha Hd Hcb Hdb Hk Hu. cbn [bind].
  destruct (Hk t' L F) as (t'' & -> & L' & V' & F').
  exists t''. split; [reflexivity|]. split; [eapply same_len_trans; eauto|]. split.
  - intros i Hi. destruct (Z_lt_le_dec i c) as [Hlt|Hge].
    + rewrite F'.
      * rewrite V by lia. symmetry. apply Hu; lia.
      * intros i' Hi' He. apply cell_one in He; lia.
    + apply V'. lia.
  - intros q Hq. rewrite F' by (intros i Hi; apply Hq; lia). apply F. intros i Hi. apply Hq. lia.
Qed.

Lemma seg_ext r t j a b v u : (forall i, a <= i < b -> v i = u i) -> seg r t j a b v -> seg r t j a b u.
Proof.
  intros H (t' & E1 & L & V & F). exists t'. split; [exact E1|]. split; [exact L|]. split; [|exact F].
  intros i Hi. rewrite V by lia. apply H. lia.
Qed.

(** Setting the cells [a] to [b] one after the other. *)
Lemma seg_iter (g : Z -> mem -> res E mem) t j a b v : 0 <= j < h -> 0 <= a <= b -> b <= w -> same_len m t ->
  (forall i t', a <= i < b -> same_len t t' ->
     (forall q, (forall i, a <= i < b -> q <> cell j i) -> get t' q = get t q) ->
     g i t' = store t' (cell j i) (v i)) ->
  seg (iterM (Z.to_nat (b - a)) a g t) t j a b v.
Proof.
  intros Hj Ha Hb Hl Hg.
  destruct (@iterM_inv E mem
    (fun k t' => same_len t t' /\ (forall i, a <= i < k -> get t' (cell j i) = v i) /\
       (forall q, (forall i, a <= i < k -> q <> cell j i) -> get t' q = get t q))
    g (Z.to_nat (b - a)) a t) as (t' & He & P1 & P2 & P3).
  - split; [apply same_len_refl|]. split; [intros; lia|auto].
  - intros k t' Hk (P1 & P2 & P3).
    assert (Hk' : a <= k < b) by lia.
    rewrite Hg; try assumption; [|intros q Hq; apply P3; intros i Hi; apply Hq; lia].
    rewrite store_ok.
    2:{ rewrite (same_len_inb m t'); [apply cell_in; lia|]. eapply same_len_trans; eauto. }
    eexists. split; [reflexivity|]. split; [intros x; rewrite len_upd; apply P1|]. split.
    + intros i Hi. destruct (Z.eq_dec i k) as [->|Hne]; [apply get_upd_same|].
      rewrite get_upd_other; [apply P2; lia|]. intros He. apply cell_one in He; lia.
    + intros q Hq. rewrite get_upd_other by (apply Hq; lia). apply P3. intros i Hi. apply Hq. lia.
  - rewrite Z2Nat.id in * by lia. replace (a + (b - a)) with b in * by lia.
    exists t'. split; [exact He|]. split; [exact P1|]. split; [exact P2|exact P3].
Qed.

Variable val : Z -> Z -> Z.        (* row, column *)

(** The rows before [j] hold their values, nothing else changed. *)
Definition upto (j : Z) (t : mem) : Prop :=
  same_len m t /\
  (forall j' i, 0 <= j' < j -> 0 <= i < w -> get t (cell j' i) = val j' i) /\
  (forall q, (forall j' i, 0 <= j' < j -> 0 <= i < w -> q <> cell j' i) -> get t q = get m q).

Lemma upto_0 : upto 0 m.
Proof. split; [apply same_len_refl|]. split; [intros; lia|auto]. Qed.

Lemma upto_step j t r : 0 <= j < h -> upto j t -> seg r t j 0 w (val j) ->
  exists t', r = Ok t' /\ upto (j + 1) t'.
Proof.
  intros Hj (L & V & F) (t' & -> & L' & V' & F'). exists t'. split; [reflexivity|].
  split; [eapply same_len_trans; eauto|]. split.
  - intros j' i Hj' Hi. destruct (Z.eq_dec j' j) as [->|Hne]; [apply V'; lia|].
    rewrite F'; [apply V; lia|]. intros i' Hi' He. apply cell_one in He; lia.
  - intros q Hq. rewrite F' by (intros i Hi; apply Hq; lia). apply F. intros. apply Hq; lia.
Qed.

Lemma upto_iter (g : Z -> mem -> res E mem) a b t : 0 <= a <= b -> b <= h -> upto a t ->
  (forall j t, a <= j < b -> upto j t -> seg (g j t) t j 0 w (val j)) ->
  exists t', iterM (Z.to_nat (b - a)) a g t = Ok t' /\ upto b t'.
Proof.
  intros Ha Hb H0 Hs.
  destruct (@iterM_inv E mem upto g (Z.to_nat (b - a)) a t) as (t' & He & P).
  - exact H0.
  - intros j t' Hj P. apply (upto_step j t'); [lia|exact P|]. apply Hs; [lia|exact P].
  - rewrite Z2Nat.id in P by lia. replace (a + (b - a)) with b in P by lia. eauto.
Qed.
End ROWS.

(** memset on part of a row *)
Lemma seg_memset {E} m cell h w t j a b p :
  (forall j i, 0 <= j < h -> 0 <= i < w -> inb m (cell j i) = true) ->
  (forall j i j' i', 0 <= j < h -> 0 <= i < w -> 0 <= j' < h -> 0 <= i' < w ->
     cell j i = cell j' i' -> j = j' /\ i = i') ->
  0 <= j < h -> 0 <= a <= b -> b <= w -> same_len m t ->
  (forall i, cell j i = padd p (i - a)) ->
  seg cell (@memset E t p 0 (b - a)) t j a b (fun _ => 0).
Proof.
  intros Hi Ho Hj Ha Hb Hl Hp.
  rewrite <- (Z2Nat.id (b - a)) by lia. rewrite <- (padd_0 p), memset_iterM.
  replace (iterM (Z.to_nat (b - a)) 0 (fun i m0 => store m0 (padd p i) 0) t)
    with (iterM (Z.to_nat (b - a)) (0 + a) (fun i m0 => @store E m0 (padd p (i - a)) 0) t).
  2:{ rewrite iterM_shift. apply iterM_ext. intros k s _. do 2 f_equal. lia. }
  apply (seg_iter m cell h w Hi Ho); auto.
  intros i t' Hi' _ _. rewrite Hp. reflexivity.
Qed.

(** ** One row of Shift *)

Lemma shift_row_seg m cell h w t j c left right real rsIn outY inY :
  (forall j i, 0 <= j < h -> 0 <= i < w -> inb m (cell j i) = true) ->
  (forall j i j' i', 0 <= j < h -> 0 <= i < w -> 0 <= j' < h -> 0 <= i' < w ->
     cell j i = cell j' i' -> j = j' /\ i = i') ->
  0 <= j < h -> 0 <= left -> 0 <= right -> 0 <= real -> left + real + right = w -> w < W32 ->
  same_len m t -> (forall q, (forall j i, 0 <= j < h -> 0 <= i < w -> q <> cell j i) -> get t q = get m q) ->
  (forall i, cell j i = padd outY i) ->
  (forall i d, 0 <= i < left + real -> In d [0; rsIn; 1; 1 + rsIn] ->
     inb m (padd inY (left + i + d)) = true /\
     forall j' i', 0 <= j' < h -> 0 <= i' < w -> padd inY (left + i + d) <> cell j' i') ->
  seg cell (shift_row c left right real rsIn outY inY t) t j 0 w
    (fun i => if i <? left + real then
       shift_px c (get m (padd inY (left + i + 0))) (get m (padd inY (left + i + rsIn)))
                  (get m (padd inY (left + i + 1))) (get m (padd inY (left + i + (1 + rsIn)))) else 0).
Proof.
  intros Hi Ho Hj Hl Hr Hre Hw Hw32 Hs Hf Hc Hin. unfold shift_row.
  assert (Hc0 : forall a i, cell j i = padd (padd outY a) (i - a)).
  { intros a i. rewrite Hc, padd_padd. f_equal. lia. }
  apply (seg_bind m cell h w Hi Ho _ t j 0 left 0 w (fun _ => 0)); try lia.
  - replace left with (left - 0) at 1 by lia.
    apply (seg_memset m cell h w); auto; try lia. intros i. rewrite Hc. f_equal. lia.
  - intros t1 L1 F1. cbv zeta.
    assert (L1' : same_len m t1) by (eapply same_len_trans; eauto).
    apply (seg_bind m cell h w Hi Ho _ t1 j 0 (left + real) (left + real) w
             (fun i => shift_px c (get m (padd inY (left + i + 0))) (get m (padd inY (left + i + rsIn)))
                  (get m (padd inY (left + i + 1))) (get m (padd inY (left + i + (1 + rsIn)))))); try lia.
    + rewrite (walk_iterM (left + real)); try lia.
      2:{ rewrite u32_small by lia. lia. }
      2:{ rewrite padd_padd. f_equal. lia. }
      2:{ reflexivity. }
      replace (left + real) with (left + real - 0) at 1 by lia.
      apply (seg_iter m cell h w Hi Ho); auto; try lia.
      intros i t2 Hi2 L2 F2. unfold at_, ImgFun.c0, ImgFun.c1. cbn [combine map nth fst snd].
      rewrite !padd_padd.
      assert (G : forall d, In d [0; rsIn; 1; 1 + rsIn] ->
                @load mem t2 (padd inY (left + i + d)) = Ok (get m (padd inY (left + i + d)))).
      { intros d Hd. destruct (Hin i d Hi2 Hd) as (B1 & B2). rewrite load_ok.
        - f_equal. rewrite F2, F1, Hf; auto; intros i' Hi'; apply B2; lia.
        - rewrite (same_len_inb m t2); [exact B1|]. eapply same_len_trans; eauto. }
      replace (left + i * 1) with (left + i + 0) by lia. rewrite G by (simpl; auto). cbn [bind].
      replace (left + i + 0 + rsIn) with (left + i + rsIn) by lia. rewrite G by (simpl; auto). cbn [bind].
      replace (left + i + 0 + 1) with (left + i + 1) by lia. rewrite G by (simpl; auto). cbn [bind].
      replace (left + i + 0 + (1 + rsIn)) with (left + i + (1 + rsIn)) by lia. rewrite G by (simpl; auto).
      cbn [bind]. rewrite Hc. f_equal. f_equal. lia.
    + intros t2 L2 F2. rewrite padd_padd. replace right with (w - (left + real)) by lia.
      apply (seg_ext m cell h w Hi Ho _ _ _ _ _ (fun _ => 0)).
      { intros i Hi'. destruct (Z.ltb_spec i (left + real)); [lia|reflexivity]. }
      apply (seg_memset m cell h w); auto; try lia.
      eapply same_len_trans; [exact L1'|exact L2].
    + intros i Hi'. destruct (Z.ltb_spec i (left + real)); [reflexivity|lia].
Qed.

(** ** The empty areas *)

Definition before_ (start n : Z) : Z := Z.max 0 (- n - start).
Definition after_ (start size total n : Z) : Z := if 0 <? n then Z.max 0 (start + size + n - total + 1) else 0.
Definition real_ (start size total n : Z) : Z := size - before_ start n - after_ start size total n.

Lemma axis_before start size total n : 0 <= start -> start + size <= total -> total <= I32 -> Z.abs n < size ->
  empty_before start n = before_ start n.
Proof.
  intros H1 H2 H3 H4. unfold I32 in H3. unfold empty_before, before_.
  destruct (Z.ltb_spec n 0); cbn [andb]; [|lia].
  rewrite (u32_small (- n)) by (unfold W32; lia).
  destruct (Z.ltb_spec start (- n)); [|lia]. rewrite u32_small by (unfold W32; lia). lia.
Qed.

Lemma axis_after start size total n : 0 <= start -> start + size <= total -> total <= I32 -> Z.abs n < size ->
  empty_after start size total n = after_ start size total n.
Proof.
  intros H1 H2 H3 H4. unfold I32 in H3. unfold empty_after, after_. cbv zeta.
  destruct (Z.ltb_spec 0 n); cbn [andb]; [|reflexivity].
  rewrite (u32_small (total - 1)) by (unfold W32; lia).
  rewrite (u32_small n), (u32_small (start + size)) by (unfold W32; lia).
  rewrite u32_small by (unfold W32; lia).
  destruct (Z.ltb_spec (total - 1) (start + size + n)); [|lia]. rewrite u32_small by (unfold W32; lia). lia.
Qed.

Lemma axis_sum start size total n : 0 <= start -> start + size <= total -> Z.abs n < size ->
  0 <= before_ start n /\ 0 <= after_ start size total n /\ 0 <= real_ start size total n.
Proof.
  intros H1 H2 H4. unfold real_, before_, after_. destruct (Z.ltb_spec 0 n); lia.
Qed.

(** ** The memory part of Shift *)

Definition shift_tail (m : mem) (inp : image) (xi yi : Z) (out : image) (xo yo w h nx ny : Z) (c : Z * Z * Z * Z)
    : res mem mem :=
  let left := empty_before xi nx in
  let right := empty_after xi w (iw inp) nx in
  let realWidth := u32 (w - left - right) in
  let top := empty_before yi ny in
  let bottom := empty_after yi h (ih inp) ny in
  let realHeight := u32 (h - top - bottom) in
  let rsIn := irs inp in
  let rsOut := irs out in
  let inY := row_ptr inp xi yi 1 in
  let outY := row_ptr out xo yo 1 in
  do a <- s32 (ny * to_s32 rsIn);
  do b <- s32 (nx + a);
  let inY := padd inY b in
  do m <- shift_clear top rsOut w outY m;
  let outY := padd outY (u32 (top * rsOut)) in
  let inY := padd inY (u32 (top * rsIn)) in
  do m <- walk realHeight [outY; inY] [rsOut; rsIn] (padd outY (u32 (realHeight * rsOut)))
            (fun cs m => shift_row c left right realWidth rsIn (c0 cs) (c1 cs) m) m;
  let outY := padd outY (u32 (realHeight * rsOut)) in
  shift_clear bottom rsOut w outY m.

(** The pixels that are read lie inside the image, for one axis: the columns and the rows. *)
Definition safe_cols (xi w W n : Z) : Prop :=
  n > 0 \/ n = 0 /\ xi + w < W \/ n < 0 /\ (0 <= xi + n \/ w < W).
Definition safe_rows (yi h H n : Z) : Prop := n <> 0 \/ yi + h < H.

Definition shift_val (m : mem) (inp : image) (xi yi w h nx ny : Z) (c : Z * Z * Z * Z) (j i : Z) : Z :=
  let left := before_ xi nx in
  let top := before_ yi ny in
  if (top <=? j) && (j <? top + real_ yi h (ih inp) ny) && (i <? left + real_ xi w (iw inp) nx) then
    let x := xi + nx + left + i in
    let y := yi + ny + j in
    shift_px c (pixel m inp x y 0) (pixel m inp x (y + 1) 0) (pixel m inp (x + 1) y 0) (pixel m inp (x + 1) (y + 1) 0)
  else 0.

Lemma clear_rows m cell h w val a b t rs O :
  (forall j i, 0 <= j < h -> 0 <= i < w -> inb m (cell j i) = true) ->
  (forall j i j' i', 0 <= j < h -> 0 <= i < w -> 0 <= j' < h -> 0 <= i' < w ->
     cell j i = cell j' i' -> j = j' /\ i = i') ->
  (forall j i, cell j i = padd O (j * rs + i)) ->
  0 <= a <= b -> b <= h -> 0 < rs -> h * rs < W32 -> 0 <= w ->
  (forall j i, a <= j < b -> 0 <= i < w -> val j i = 0) ->
  upto m cell w val a t ->
  exists t', shift_clear (b - a) rs w (padd O (a * rs)) t = Ok t' /\ upto m cell w val b t'.
Proof.
  intros Hi Ho Hc Ha Hb Hrs Hsz Hw Hv Hu. unfold shift_clear.
  rewrite walk_rows by (try reflexivity; nia).
  replace (iterM (Z.to_nat (b - a)) 0
     (fun j => (fun (cs : list ptr) (m0 : mem) => memset m0 (c0 cs) 0 w) (at_ [padd O (a * rs)] [rs] j)) t)
    with (iterM (Z.to_nat (b - a)) (0 + a) (fun j m0 => @memset mem m0 (padd O (j * rs)) 0 (w - 0)) t).
  2:{ rewrite iterM_shift. apply iterM_ext. intros j s _. unfold at_, c0. cbn [combine map nth fst snd].
      rewrite padd_padd, Z.sub_0_r. do 2 f_equal. lia. }
  apply (upto_iter m cell h w Hi Ho val); auto.
  intros j t' Hj (L & _ & _).
  apply (seg_ext m cell h w Hi Ho _ _ _ _ _ (fun _ => 0)); [intros i Hi'; symmetry; apply Hv; lia|].
  apply (seg_memset m cell h w); auto; try lia.
  intros i. rewrite Hc, padd_padd. f_equal. lia.
Qed.

Lemma tail_writes m inp xi yi out xo yo w h nx ny c :
  wf m inp -> wf m out -> icc inp = 1 -> icc out = 1 -> roi_in inp xi yi w h -> roi_in out xo yo w h ->
  disjoint inp 0 0 (iw inp) (ih inp) out xo yo w h ->
  ih inp * irs inp < I32 -> Z.abs nx < w -> Z.abs ny < h ->
  safe_cols xi w (iw inp) nx -> safe_rows yi h (ih inp) ny ->
  writes (shift_tail m inp xi yi out xo yo w h nx ny c) m out xo yo w h
    (fun i j _ => shift_val m inp xi yi w h nx ny c j i).
Proof.
  intros W1 Wo C1 Co R1 Ro D HI Hx Hy Sx Sy.
  assert (Rs1 : 0 < irs inp) by (eapply wf_rs_pos; eauto).
  assert (Rso : 0 < irs out) by (eapply wf_rs_pos; eauto).
  pose proof (wf_rs _ _ W1) as Hrs1. rewrite C1 in Hrs1.
  pose proof (wf_w _ _ W1). pose proof (wf_h _ _ W1).
  assert (HI2 : irs inp < I32) by nia. assert (HI3 : ih inp < I32) by nia.
  pose proof (roi_rows_small m out xo yo w h Wo Ro) as Hsm.
  destruct R1 as [Rx Ry Rw Rh Rxw Ryh] eqn:ER1.
  destruct (axis_sum xi w (iw inp) nx) as (L0 & Rt0 & RW0); try lia.
  destruct (axis_sum yi h (ih inp) ny) as (T0 & B0 & RH0); try lia.
  unfold shift_tail.
  rewrite (axis_before xi w (iw inp)), axis_after, (axis_before yi h (ih inp)), axis_after by (unfold I32 in *; lia).
  cbv zeta.
  fold (real_ xi w (iw inp) nx). fold (real_ yi h (ih inp) ny).
  set (left := before_ xi nx) in *. set (right := after_ xi w (iw inp) nx) in *.
  set (top := before_ yi ny) in *. set (bottom := after_ yi h (ih inp) ny) in *.
  assert (SumW : left + real_ xi w (iw inp) nx + right = w) by (unfold real_; fold left right; lia).
  assert (SumH : top + real_ yi h (ih inp) ny + bottom = h) by (unfold real_; fold top bottom; lia).
  set (RW := real_ xi w (iw inp) nx) in *. set (RH := real_ yi h (ih inp) ny) in *.
  assert (Hw32 : w < W32) by (unfold I32 in *; unfold W32; lia).
  rewrite (u32_small RW) by lia. rewrite (u32_small RH) by (unfold I32 in *; unfold W32; lia).
  assert (ES : to_s32 (irs inp) = irs inp).
  { unfold to_s32. destruct (Z.ltb_spec (irs inp) I32); lia. }
  rewrite ES.
  assert (Hn1 : Z.abs (ny * irs inp) <= (ih inp - 1) * irs inp) by (rewrite Z.abs_mul; nia).
  assert (Hn2 : Z.abs nx <= irs inp - 1) by lia.
  rewrite s32_ok by (unfold I32 in *; nia). cbn [bind].
  rewrite s32_ok by (unfold I32 in *; nia). cbn [bind].
  rewrite (row_ptr_origin m inp xi yi w h 1) by (auto; lia).
  rewrite (row_ptr_origin m out xo yo w h 1) by (auto; lia).
  set (O := origin out xo yo 1). 
  assert (Et : u32 (top * irs out) = top * irs out) by (apply u32_small; nia).
  assert (Et' : u32 (top * irs inp) = top * irs inp) by (apply u32_small; unfold I32, W32 in *; nia).
  assert (Er : u32 (RH * irs out) = RH * irs out) by (apply u32_small; nia).
  rewrite Et, Et', Er.
  set (cell := fun j i => padd O (j * irs out + i)).
  assert (Hin : forall j i, 0 <= j < h -> 0 <= i < w -> inb m (cell j i) = true).
  { intros j i Hj Hi. unfold cell, O. rewrite <- Co. apply (cell_inb m out xo yo w h); auto; rewrite ?Co; lia. }
  assert (Hone : forall j i j' i', 0 <= j < h -> 0 <= i < w -> 0 <= j' < h -> 0 <= i' < w ->
     cell j i = cell j' i' -> j = j' /\ i = i').
  { intros j i j' i' Hj Hi Hj' Hi'. unfold cell, O. rewrite <- Co.
    apply (cell_inj m out xo yo w h); auto; rewrite ?Co; lia. }
  set (val := shift_val m inp xi yi w h nx ny c).
  (* the empty rows at the top *)
  destruct (clear_rows m cell h w val 0 top m (irs out) O) as (m1 & E1 & U1); auto; try lia.
  { intros j i Hj Hi. unfold val, shift_val. fold left top. cbv zeta.
    destruct (Z.leb_spec top j); [lia|]. reflexivity. }
  { apply (upto_0 m cell h w Hin Hone val). }
  rewrite Z.sub_0_r, Z.mul_0_l, padd_0 in E1. rewrite E1. cbn [bind].
  (* the rows with an image *)
  set (I0 := padd (padd (origin inp xi yi 1) (nx + ny * irs inp)) (top * irs inp)).
  assert (HI0 : forall j x d y, padd (padd I0 (j * irs inp)) (left + x + (y * irs inp + d))
                 = px inp (xi + nx + left + x + d) (yi + ny + (top + j) + y) 0).
  { intros j x d y. unfold I0, origin, px, padd. cbn [fst snd]. rewrite C1. f_equal. lia. }
  assert (Hread : forall j x d y, 0 <= j < RH -> 0 <= x < left + RW -> 0 <= d <= 1 -> 0 <= y <= 1 ->
            0 <= xi + nx + left + x + d < iw inp /\ 0 <= yi + ny + (top + j) + y < ih inp).
  { intros j x d y Hj Hx' Hd Hy'. clearbody RW RH.
    unfold safe_cols, safe_rows in *.
    assert (Hl : left = before_ xi nx) by reflexivity. assert (Ht : top = before_ yi ny) by reflexivity.
    assert (Hr : right = after_ xi w (iw inp) nx) by reflexivity.
    assert (Hb : bottom = after_ yi h (ih inp) ny) by reflexivity.
    unfold before_ in Hl, Ht. unfold after_ in Hr, Hb.
    destruct (Z.ltb_spec 0 nx); destruct (Z.ltb_spec 0 ny); lia. }
  assert (E2 : exists m2, walk RH [padd O (top * irs out); I0] [irs out; irs inp]
      (padd (padd O (top * irs out)) (RH * irs out))
      (fun cs m0 => shift_row c left right RW (irs inp) (c0 cs) (c1 cs) m0) m1 = Ok m2 /\
      upto m cell w val (top + RH) m2).
  { rewrite (walk_iterM RH) by (try reflexivity; lia).
    match goal with |- exists m2, ?l = _ /\ _ =>
      replace l with (iterM (Z.to_nat (top + RH - top)) (0 + top) (fun j m0 =>
         shift_row c left right RW (irs inp) (padd O (j * irs out)) (padd I0 ((j - top) * irs inp)) m0) m1) end.
    2:{ replace (top + RH - top) with RH by lia. rewrite iterM_shift. apply iterM_ext. intros j s _.
        unfold at_, c0, c1. cbn [combine map nth fst snd]. rewrite padd_padd.
        replace (j + top - top) with j by lia.
        replace ((j + top) * irs out) with (top * irs out + j * irs out) by lia. reflexivity. }
    apply (upto_iter m cell h w Hin Hone val); auto; try lia.
    intros j t Hj U. destruct U as (L & V & F).
    apply (seg_ext m cell h w Hin Hone _ _ _ _ _
       (fun i => if i <? left + RW then
       shift_px c (get m (padd (padd I0 ((j - top) * irs inp)) (left + i + 0)))
                  (get m (padd (padd I0 ((j - top) * irs inp)) (left + i + irs inp)))
                  (get m (padd (padd I0 ((j - top) * irs inp)) (left + i + 1)))
                  (get m (padd (padd I0 ((j - top) * irs inp)) (left + i + (1 + irs inp)))) else 0)).
    { intros i Hi. unfold val, shift_val. fold left top RW RH. cbv zeta.
      destruct (Z.leb_spec top j); [|lia]. destruct (Z.ltb_spec j (top + RH)); [|lia]. cbn [andb].
      destruct (Z.ltb_spec i (left + RW)); [|reflexivity].
      unfold pixel.
      f_equal; f_equal;
        [replace (left + i + 0) with (left + i + (0 * irs inp + 0)) by lia
        |replace (left + i + irs inp) with (left + i + (1 * irs inp + 0)) by lia
        |replace (left + i + 1) with (left + i + (0 * irs inp + 1)) by lia
        |replace (left + i + (1 + irs inp)) with (left + i + (1 * irs inp + 1)) by lia];
        rewrite HI0; f_equal; lia. }
    apply (shift_row_seg m cell h w); auto; try lia.
    - intros q Hq. apply F. intros j' i Hj' Hi. apply Hq; lia.
    - intros i. unfold cell. rewrite padd_padd. reflexivity.
    - intros i d Hi Hd.
      assert (Hd' : exists y x, 0 <= y <= 1 /\ 0 <= x <= 1 /\ d = y * irs inp + x).
      { cbn [In] in Hd. destruct Hd as [<-|[<-|[<-|[<-|[]]]]].
        - exists 0, 0. lia. - exists 1, 0. lia. - exists 0, 1. lia. - exists 1, 1. lia. }
      destruct Hd' as (y & x & Hy' & Hx' & ->). rewrite HI0.
      destruct (Hread (j - top) i x y) as (A & B); try lia.
      set (X := xi + nx + left + i + x) in *. set (Y := yi + ny + (top + (j - top)) + y) in *.
      split.
      + apply (px_inb1 m inp X Y W1 C1 A B).
      + intros j' i' Hj' Hi' He.
        apply (D X Y 0 i' j' 0); try (unfold inside; rewrite ?C1, ?Co; lia).
        rewrite !Z.add_0_l. rewrite He. unfold cell, O, origin, px, padd. cbn [fst snd]. rewrite Co. f_equal. lia. }
  destruct E2 as (m2 & E2 & U2). rewrite E2. cbn [bind].
  (* the empty rows at the bottom *)
  destruct (clear_rows m cell h w val (top + RH) h m2 (irs out) O) as (m3 & E3 & U3); auto; try lia.
  { intros j i Hj Hi. unfold val, shift_val. fold left top RW RH. cbv zeta.
    destruct (Z.ltb_spec j (top + RH)); [lia|]. rewrite andb_false_r. reflexivity. }
  rewrite padd_padd. replace (top * irs out + RH * irs out) with ((top + RH) * irs out) by lia.
  replace bottom with (h - (top + RH)) by lia. rewrite E3.
  destruct U3 as (L3 & V3 & F3). exists m3. split; [reflexivity|].
  assert (Hpx : forall i j, px out (xo + i) (yo + j) 0 = cell j i).
  { intros i j. unfold cell, O, origin, px, padd. cbn [fst snd]. rewrite Co. f_equal. lia. }
  split.
  - intros i j k (Hi & Hj & Hk). rewrite Co in Hk. assert (k = 0) by lia. subst k.
    unfold pixel. rewrite Hpx. apply V3; lia.
  - split; [exact L3|]. intros p Hp. apply F3. intros j i Hj Hi. rewrite <- Hpx. apply Hp.
    unfold inside. rewrite Co. lia.
Qed.

(** ** The value of a pixel of Shift *)

Definition wide : R := (/ 2 + 2 * tiny)%R.

(** [q] is 16384 times the weight [a] to within a rounding. *)
Definition weighs (q : Z) (a : R) : Prop := 0 <= q <= 16384 /\ (Rabs (IZR q - 16384 * a) <= wide)%R.

Definition eps52 : R := bpow radix2 (-52).
Lemma eps52_val : eps52 = (/ 4503599627370496)%R.
Proof. unfold eps52. simpl. lra. Qed.

Lemma coeff_weighs {E} a b ra rb wa wb : isR a ra -> isR b rb -> (0 <= ra <= 1)%R -> (0 <= rb <= 1)%R ->
  (0 <= wa <= 1)%R -> (Rabs (ra - wa) <= eps52)%R -> (Rabs (rb - wb) <= eps52)%R ->
  exists q, @shift_coeff E a b = Ok q /\ weighs q (wa * wb).
Proof.
  intros Ha Hb Ra Rb Wa Na Nb.
  destruct (@shift_coeff_value E a b ra rb Ha Hb Ra Rb) as (q & Hq & Hr & Hn).
  exists q. split; [exact Hq|]. split; [exact Hr|].
  assert (N : (Rabs (ra * rb - wa * wb) <= eps52 * 1 + 1 * eps52)%R).
  { apply near_mul; auto; apply Rabs_le; lra. }
  rewrite eps52_val in N. unfold wide. rewrite tiny_val in *. apply Rabs_le_inv in N, Hn. apply Rabs_le. lra.
Qed.

Lemma rest_value c rc a : isR c rc -> (0 <= rc <= 1)%R -> (Rabs (rc - a) <= bpow radix2 (-53))%R ->
  isR (dsub (dofZ 1) c) (rnd (1 - rc)) /\ (0 <= rnd (1 - rc) <= 1)%R /\ (Rabs (rnd (1 - rc) - (1 - a)) <= eps52)%R.
Proof.
  intros Hc Hr Hn.
  assert (B : (Rabs (1 - rc) <= bpow radix2 0)%R) by (simpl bpow; apply Rabs_le; lra).
  pose proof (rnd_bound _ 0 ltac:(lia) B) as B2. pose proof (rnd_error _ 0 ltac:(lia) B) as E.
  pose proof (rnd_pos (1 - rc) ltac:(lra)) as P.
  split; [|split].
  - apply isR_sub; auto; [apply (isR_ofZ 1); lia|]. apply (bound_big _ 0); [lia|exact B2].
  - simpl bpow in B2. rewrite Rabs_pos_eq in B2 by exact P. lra.
  - replace (bpow radix2 (-53)) with (/ 9007199254740992)%R in Hn by (simpl; lra).
    replace (bpow radix2 (0 - 53)) with (/ 9007199254740992)%R in E by (simpl; lra).
    rewrite eps52_val. apply Rabs_le_inv in E, Hn. apply Rabs_le. lra.
Qed.

Lemma shift_px_near q0 q1 q2 q3 a b p00 p01 p10 p11 :
  weighs q0 (a * b) -> weighs q1 ((1 - a) * b) -> weighs q2 ((1 - a) * (1 - b)) -> weighs q3 (a * (1 - b)) ->
  0 <= p00 <= 255 -> 0 <= p01 <= 255 -> 0 <= p10 <= 255 -> 0 <= p11 <= 255 ->
  let r := shift_px (q0, q1, q2, q3) p00 p01 p10 p11 in
  0 <= r <= 255 /\
  (Rabs (IZR r - (a * b * IZR p00 + a * (1 - b) * IZR p01 + (1 - a) * b * IZR p10 + (1 - a) * (1 - b) * IZR p11))
   <= 27 / 50)%R.
Proof.
  intros (R0 & N0) (R1 & N1) (R2 & N2) (R3 & N3) P0 P1 P2 P3. cbv zeta.
  unfold wide in *. rewrite tiny_val in *. apply Rabs_le_inv in N0, N1, N2, N3.
  assert (HS : q0 + q1 + q2 + q3 <= 16386).
  { assert (H : (IZR (q0 + q1 + q2 + q3) < 16387)%R) by (rewrite !plus_IZR; lra). apply lt_IZR in H. lia. }
  set (s := p00 * q0 + p01 * q3 + p10 * q1 + p11 * q2).
  assert (Hs : 0 <= s <= 255 * 16386) by (unfold s; nia).
  assert (E : shift_px (q0, q1, q2, q3) p00 p01 p10 p11 = (s + 8192) / 16384).
  { unfold shift_px.
    assert (K : forall p q, 0 <= p <= 255 -> 0 <= q <= 16384 -> 0 <= p * q <= 4177920) by (clear; intros; nia).
    pose proof (K p00 q0 P0 R0). pose proof (K p01 q3 P1 R3). pose proof (K p10 q1 P2 R1).
    pose proof (K p11 q2 P3 R2). clear K.
    rewrite (u32_small (p00 * q0)), (u32_small (p01 * q3)), (u32_small (p10 * q1)), (u32_small (p11 * q2))
      by (unfold W32; lia).
    rewrite (u32_small (p00 * q0 + p01 * q3)) by (unfold W32; lia).
    rewrite (u32_small (p00 * q0 + p01 * q3 + p10 * q1)) by (unfold W32; lia). fold s.
    rewrite (u32_small s) by (unfold W32; lia). rewrite (u32_small (s + 8192)) by (unfold W32; lia).
    rewrite Z.shiftr_div_pow2 by lia. change (2 ^ 14) with 16384. apply u8_small.
    split; [apply Z.div_pos; lia|]. apply Z.div_lt_upper_bound; lia. }
  rewrite E. set (r := (s + 8192) / 16384).
  assert (D1 : r * 16384 <= s + 8192 < r * 16384 + 16384).
  { unfold r. pose proof (Z.mul_div_le (s + 8192) 16384 ltac:(lia)).
    pose proof (Z.mul_succ_div_gt (s + 8192) 16384 ltac:(lia)). lia. }
  split; [lia|].
  assert (D2 : (Rabs (16384 * IZR r - IZR s) <= 8192)%R).
  { rewrite <- mult_IZR, <- minus_IZR, <- abs_IZR. apply IZR_le. lia. }
  clearbody r. clear E. apply Rabs_le_inv in D2.
  assert (ES : IZR s = (IZR p00 * IZR q0 + IZR p01 * IZR q3 + IZR p10 * IZR q1 + IZR p11 * IZR q2)%R).
  { unfold s. rewrite !plus_IZR, !mult_IZR. reflexivity. }
  rewrite ES in D2.
  assert (Hp : forall p q A, 0 <= p <= 255 -> (- (/ 2 + 2 * / 1073741824) <= IZR q - 16384 * A <= / 2 + 2 * / 1073741824)%R ->
     (Rabs (IZR p * IZR q - 16384 * (A * IZR p)) <= 128)%R).
  { clear. intros p q A Hp Hq.
    replace (IZR p * IZR q - 16384 * (A * IZR p))%R with (IZR p * (IZR q - 16384 * A))%R by ring.
    assert (0 <= IZR p <= 255)%R by (split; apply IZR_le; lia).
    rewrite Rabs_mult, (Rabs_pos_eq (IZR p)) by lra.
    apply Rle_trans with (255 * (/ 2 + 2 * / 1073741824))%R; [|lra].
    apply Rmult_le_compat; try lra; [apply Rabs_pos|]. apply Rabs_le. lra. }
  pose proof (Hp p00 q0 _ P0 N0) as M0. pose proof (Hp p10 q1 _ P2 N1) as M1.
  pose proof (Hp p11 q2 _ P3 N2) as M2. pose proof (Hp p01 q3 _ P1 N3) as M3.
  clear Hp N0 N1 N2 N3. apply Rabs_le_inv in M0, M1, M2, M3.
  revert D2 M0 M1 M2 M3.
  generalize (IZR p00 * IZR q0)%R (IZR p10 * IZR q1)%R (IZR p11 * IZR q2)%R (IZR p01 * IZR q3)%R.
  generalize (a * b * IZR p00)%R ((1 - a) * b * IZR p10)%R ((1 - a) * (1 - b) * IZR p11)%R (a * (1 - b) * IZR p01)%R.
  intros A1 A2 A3 A4 B1 B2 B3 B4 D2 M0 M1 M2 M3. apply Rabs_le. lra.
Qed.

(** ** Shift as a whole *)

Definition cut (r : R) (k : Z) : Prop := (Rabs r <= IZR (k - 1))%R.

Lemma floor_range r k : cut r k -> Z.abs (Zfloor (- r)) < k.
Proof.
  intros H. apply Rabs_le_inv in H.
  assert (Zfloor (- r) <= k - 1).
  { apply le_IZR. eapply Rle_trans; [apply Zfloor_lb|]. lra. }
  assert (- (k - 1) <= Zfloor (- r)).
  { apply Zfloor_lub. rewrite opp_IZR. lra. }
  lia.
Qed.

Lemma isR_abs x r : isR x r -> isR (dabs x) (Rabs r).
Proof.
  intros (b & <- & F & <-). exists (Babs b). split; [destruct b; reflexivity|]. split; [rewrite is_finite_Babs; exact F|].
  apply B2R_Babs.
Qed.

(** The weight of the left or the upper pixel. *)
Definition weight (r : R) (a : R) : Prop :=
  (whole r -> a = 0%R) /\ (~ whole r -> a = (1 - (- r - IZR (Zfloor (- r))))%R).

Lemma weight_ex r : exists a, weight r a.
Proof.
  unfold weight, whole. destruct (Req_dec r (IZR (Ztrunc r))) as [H|H].
  - exists 0%R. split; [reflexivity|]. intros H'. destruct (H' H).
  - exists (1 - (- r - IZR (Zfloor (- r))))%R. split; [|reflexivity]. intros H'. destruct (H H').
Qed.

Lemma weight_range r a : weight r a -> (0 <= a <= 1)%R.
Proof.
  intros (H1 & H2). unfold whole in *. destruct (Req_dec r (IZR (Ztrunc r))) as [H|H].
  - rewrite (H1 H). lra.
  - rewrite (H2 H). pose proof (Zfloor_lb (- r)). pose proof (Zfloor_ub (- r)). lra.
Qed.

Lemma Shift_split m inp xi yi out xo yo w h sx sy rx ry ax ay :
  wf m inp -> wf m out -> icc inp = 1 -> icc out = 1 -> roi_in inp xi yi w h -> roi_in out xo yo w h ->
  ih inp * irs inp < I32 -> isR sx rx -> isR sy ry -> cut rx w -> cut ry h -> weight rx ax -> weight ry ay ->
  exists q0 q1 q2 q3,
    weighs q0 (ax * ay) /\ weighs q1 ((1 - ax) * ay) /\ weighs q2 ((1 - ax) * (1 - ay)) /\ weighs q3 (ax * (1 - ay)) /\
    Shift m inp xi yi out xo yo w h sx sy
    = shift_tail m inp xi yi out xo yo w h (Zfloor (- rx)) (Zfloor (- ry)) (q0, q1, q2, q3).
Proof.
  intros W1 Wo C1 Co R1 Ro HI Hx Hy Cx Cy Wx Wy.
  pose proof (wf_rs _ _ W1) as Hrs1. rewrite C1 in Hrs1. pose proof (wf_h _ _ W1). pose proof (wf_w _ _ W1).
  assert (Hw : 0 < w < I32) by (destruct R1; nia).
  assert (Hh : 0 < h < I32) by (destruct R1; nia).
  unfold I32 in Hw, Hh.
  unfold Shift, valid_roi2, is_gray. rewrite !(valid_roi_ok m) by assumption. rewrite C1, Co. cbn [andb Z.eqb GRAY_SCALE Pos.eqb].
  rewrite !u32_small by (unfold W32; lia).
  rewrite (isR_lt _ _ _ _ (isR_ofZ (w - 1) ltac:(lia)) (isR_abs _ _ Hx)).
  rewrite (isR_lt _ _ _ _ (isR_ofZ (h - 1) ltac:(lia)) (isR_abs _ _ Hy)).
  rewrite Rlt_bool_false by exact Cx. rewrite Rlt_bool_false by exact Cy. cbn [orb negb].
  assert (Bx : (Rabs rx <= IZR (I32 - 1))%R).
  { eapply Rle_trans; [exact Cx|]. apply IZR_le. unfold I32. lia. }
  assert (By : (Rabs ry <= IZR (I32 - 1))%R).
  { eapply Rle_trans; [exact Cy|]. apply IZR_le. unfold I32. lia. }
  destruct (@shift_parts_value mem sx rx Hx Bx) as (cx & rcx & Ex & Ix & Gx & Zx & Nx).
  destruct (@shift_parts_value mem sy ry Hy By) as (cy & rcy & Ey & Iy & Gy & Zy & Ny).
  rewrite Ex, Ey. cbn [bind].
  assert (near : forall r rc a, weight r a -> (whole r -> rc = 0%R) ->
     (~ whole r -> (Rabs (rc - (1 - (- r - IZR (Zfloor (- r))))) <= bpow radix2 (-53))%R) ->
     (Rabs (rc - a) <= bpow radix2 (-53))%R).
  { clear. intros r rc a (H1 & H2) Z N. unfold whole in *.
    destruct (Req_dec r (IZR (Ztrunc r))) as [H|H].
    - rewrite (H1 H), (Z H), Rminus_0_r, Rabs_R0. apply bpow_ge_0.
    - rewrite (H2 H). apply N. exact H. }
  pose proof (near rx rcx ax Wx Zx Nx) as Dx. pose proof (near ry rcy ay Wy Zy Ny) as Dy.
  destruct (rest_value cx rcx ax Ix Gx Dx) as (I1 & G1 & D1).
  destruct (rest_value cy rcy ay Iy Gy Dy) as (I2 & G2 & D2).
  pose proof (weight_range _ _ Wx). pose proof (weight_range _ _ Wy).
  assert (Dx' : (Rabs (rcx - ax) <= eps52)%R) by (eapply Rle_trans; [exact Dx|]; apply bpow_le; lia).
  assert (Dy' : (Rabs (rcy - ay) <= eps52)%R) by (eapply Rle_trans; [exact Dy|]; apply bpow_le; lia).
  destruct (@coeff_weighs mem cx cy rcx rcy ax ay) as (q0 & E0 & Q0); auto.
  destruct (@coeff_weighs mem (dsub (dofZ 1) cx) cy (rnd (1 - rcx)) rcy (1 - ax) ay) as (q1 & E1 & Q1); auto; [lra|].
  destruct (@coeff_weighs mem (dsub (dofZ 1) cx) (dsub (dofZ 1) cy) (rnd (1 - rcx)) (rnd (1 - rcy)) (1 - ax) (1 - ay))
    as (q2 & E2 & Q2); auto; [lra|].
  destruct (@coeff_weighs mem cx (dsub (dofZ 1) cy) rcx (rnd (1 - rcy)) ax (1 - ay)) as (q3 & E3 & Q3); auto.
  exists q0, q1, q2, q3. split; [exact Q0|]. split; [exact Q1|]. split; [exact Q2|]. split; [exact Q3|].
  rewrite E0. cbn [bind]. rewrite E1. cbn [bind]. rewrite E2. cbn [bind]. rewrite E3. cbn [bind]. reflexivity.
Qed.

(** A pixel inside both empty areas is an interpolation of four pixels of the image. *)
Lemma shift_val_in m inp xi yi w h nx ny c i j :
  roi_in inp xi yi w h -> Z.abs nx < w -> Z.abs ny < h -> 0 <= xi + nx \/ 0 <= nx ->
  nx <> 0 \/ xi + w < iw inp -> ny <> 0 \/ yi + h < ih inp ->
  0 <= i < w -> 0 <= j < h ->
  let x := xi + nx + i in let y := yi + ny + j in
  shift_val m inp xi yi w h nx ny c j i
  = if (0 <=? x) && (x + 1 <? iw inp) && (0 <=? y) && (y + 1 <? ih inp) then
      shift_px c (pixel m inp x y 0) (pixel m inp x (y + 1) 0) (pixel m inp (x + 1) y 0) (pixel m inp (x + 1) (y + 1) 0)
    else 0.
Proof.
  intros [Rx Ry Rw Rh Rxw Ryh] Hx Hy Hn Sx Sy Hi Hj. cbv zeta. unfold shift_val, real_, after_, before_. cbv zeta.
  rewrite (Z.max_l 0 (- nx - xi)) by lia. rewrite !Z.add_0_l, !Z.sub_0_r, !Z.add_0_r.
  set (A := (Z.max 0 (- ny - yi) <=? j) && _ && _). set (B := (0 <=? xi + nx + i) && _ && _ && _).
  assert (AB : A = B); [|rewrite AB; reflexivity].
  apply eq_true_iff_eq. unfold A, B. rewrite !andb_true_iff, !Z.leb_le, !Z.ltb_lt.
  destruct (Z.ltb_spec 0 nx); destruct (Z.ltb_spec 0 ny); lia.
Qed.
