(** Proofs about Tone.v: GetThreshold and the gamma table. *)
From Coq Require Import ZArith List Bool Reals Lia Lra.
From Flocq Require Import Core.
From Verif Require Import Base Image Spec BaseProofs ReduceProofs Double DoubleProofs Tone.
Import ListNotations.
Open Scope Z_scope.
Ltac Zify.zify_post_hook ::= Z.div_mod_to_equations.

(** ** The between-class variance is a finite number *)

Lemma sigma_finite P S t s :
  0 < t < P -> P < W32 -> 0 <= s < W32 -> exists r, isR (sigma_of P S t s) r /\ (-1 < r)%R.
Proof.
  intros Ht HP Hs. pose proof (u32_range (S - s)) as HR.
  assert (HW : W32 = 2 ^ 32) by reflexivity. rewrite HW in *.
  unfold sigma_of. rewrite (u32_small (P - t)) by (rewrite HW; lia).
  set (R := u32 (S - s)) in *. clearbody R.
  destruct (divZ_bound t P 0) as (D1 & N1 & B1); try lia.
  destruct (divZ_bound s t 32) as (D2 & N2 & B2); try lia; try nia.
  destruct (divZ_bound R (P - t) 32) as (D3 & N3 & B3); try lia; try nia.
  set (w1 := rnd (IZR t / IZR P)) in *. set (q2 := rnd (IZR s / IZR t)) in *.
  set (q3 := rnd (IZR R / IZR (P - t))) in *. clearbody w1 q2 q3.
  destruct (sub_bound _ _ _ _ 32 D2 D3 B2 B3) as (Da & Ba); [lia|].
  change (32 + 1) with 33 in Ba. set (a := rnd (q2 - q3)) in *. clearbody a.
  destruct (sub_bound (dofZ 1) _ 1 w1 0 (isR_ofZ 1 ltac:(lia)) D1) as (Dm & Bm);
    [rewrite Rabs_pos_eq by lra; simpl; lra|exact B1|lia|].
  assert (Hm0 : (0 <= rnd (1 - w1))%R).
  { rewrite <- (rnd_format 0) by apply generic_format_0. apply rnd_le.
    rewrite Rabs_pos_eq in B1 by exact N1. simpl in B1. lra. }
  change (0 + 1) with 1 in Bm. set (v := rnd (1 - w1)) in *. clearbody v.
  destruct (mul_bound _ _ _ _ 0 1 D1 Dm B1 Bm) as (Dw & Bw); [lia|]. change (0 + 1) with 1 in Bw.
  assert (Hw0 : (0 <= rnd (w1 * v))%R).
  { rewrite <- (rnd_format 0) by apply generic_format_0. apply rnd_le. apply Rmult_le_pos; assumption. }
  set (u := rnd (w1 * v)) in *. clearbody u.
  destruct (mul_bound _ _ _ _ 1 33 Dw Da Bw Ba) as (Dx & Bx); [lia|]. change (1 + 33) with 34 in Bx.
  assert (Hxa : (0 <= rnd (u * a) * a)%R).
  { destruct (Rle_or_lt 0 a) as [Ha|Ha].
    - apply Rmult_le_pos; [|exact Ha]. rewrite <- (rnd_format 0) by apply generic_format_0.
      apply rnd_le. apply Rmult_le_pos; assumption.
    - replace (rnd (u * a) * a)%R with ((- rnd (u * a)) * (- a))%R by ring.
      apply Rmult_le_pos; [|lra].
      assert (rnd (u * a) <= 0)%R; [|lra]. rewrite <- (rnd_format 0) by apply generic_format_0.
      apply rnd_le. replace 0%R with (u * 0)%R by ring. apply Rmult_le_compat_l; lra. }
  set (xx := rnd (u * a)) in *. clearbody xx.
  destruct (mul_bound _ _ _ _ 34 33 Dx Da Bx Ba) as (Dz & Bz); [lia|].
  exists (rnd (xx * a)). split; [exact Dz|].
  assert (0 <= rnd (xx * a))%R; [|lra].
  rewrite <- (rnd_format 0) by apply generic_format_0. apply rnd_le. exact Hxa.
Qed.

(** ** The search *)

(** Number of pixels with value at most [i], and the sum of their values. *)
Definition count_to (hist : list Z) (i : Z) : Z := zsum (i + 1) (fun k => nth (Z.to_nat k) hist 0).
Definition value_to (hist : list Z) (i : Z) : Z := zsum (i + 1) (fun k => k * nth (Z.to_nat k) hist 0).

Lemma prefix_step hist i : 0 <= i -> count_to hist i = count_to hist (i - 1) + zth hist i.
Proof.
  intros Hi. unfold count_to. replace (i - 1 + 1) with i by lia. rewrite zsum_S by lia. reflexivity.
Qed.
Lemma prefix_sum_step hist i : 0 <= i -> value_to hist i = value_to hist (i - 1) + i * zth hist i.
Proof.
  intros Hi. unfold value_to. replace (i - 1 + 1) with i by lia. rewrite zsum_S by lia. reflexivity.
Qed.

Section Search.
Variable hist : list Z.
Hypothesis Hpos : forall k, 0 <= k < 256 -> 0 <= zth hist k.
Let P := count_to hist 255.
Hypothesis HP : P < W32.
Variable S : Z.

Definition sig (i : Z) : double := sigma_of P S (count_to hist i) (u32 (value_to hist i)).
Definition candidate (i : Z) : Prop := 0 <= i < 256 /\ 0 < count_to hist i < P.

Lemma prefix_m1 : count_to hist (-1) = 0. Proof. reflexivity. Qed.

Lemma prefix_mono_nat n : forall i, -1 <= i -> i + Z.of_nat n <= 255 ->
  count_to hist i <= count_to hist (i + Z.of_nat n).
Proof.
  induction n as [|n IH]; intros i Hi Hb.
  - replace (i + Z.of_nat 0) with i by lia. lia.
  - specialize (IH i Hi ltac:(lia)). rewrite (prefix_step hist (i + Z.of_nat (Datatypes.S n))) by lia.
    pose proof (Hpos (i + Z.of_nat (Datatypes.S n)) ltac:(lia)).
    replace (i + Z.of_nat (Datatypes.S n) - 1) with (i + Z.of_nat n) by lia. lia.
Qed.
Lemma prefix_mono i j : -1 <= i <= j -> j <= 255 -> count_to hist i <= count_to hist j.
Proof.
  intros H1 H2. replace j with (i + Z.of_nat (Z.to_nat (j - i))) by lia. apply prefix_mono_nat; lia.
Qed.

Definition best (i : Z) (mx : double) (t : Z) : Prop :=
  (t = 0 /\ mx = dofZ (-1) /\ forall j, candidate j -> i <= j) \/
  (candidate t /\ t < i /\ mx = sig t /\
   (forall j, candidate j -> j < i -> dlt (sig t) (sig j) = false) /\
   (forall j, candidate j -> j < t -> dlt (sig j) (sig t) = true)).

Lemma sig_finite i : candidate i -> exists r, isR (sig i) r /\ (-1 < r)%R.
Proof. intros (Hi & Hp). apply sigma_finite; [exact Hp|exact HP|apply u32_range]. Qed.

Lemma best_step_yes i mx t : candidate i -> best i mx t -> dlt mx (sig i) = true -> best (i + 1) (sig i) i.
Proof.
  intros Hc Hb Hlt. right. split; [exact Hc|]. split; [lia|]. split; [reflexivity|].
  destruct (sig_finite i Hc) as (ri & Ri & _).
  assert (Hlast : forall j, candidate j -> j < i -> dlt (sig j) (sig i) = true).
  { intros j Hj Hji. destruct Hb as [(_ & _ & Hb)|(Ht & _ & -> & Hb & _)].
    - specialize (Hb j Hj). lia.
    - specialize (Hb j Hj Hji). destruct (sig_finite j Hj) as (rj & Rj & _).
      destruct (sig_finite t Ht) as (rt & Rt & _).
      rewrite (isR_lt _ _ _ _ Rt Rj) in Hb. rewrite (isR_lt _ _ _ _ Rt Ri) in Hlt.
      rewrite (isR_lt _ _ _ _ Rj Ri). apply Rlt_bool_true.
      destruct (Rlt_bool_spec rt rj); [discriminate|]. destruct (Rlt_bool_spec rt ri); [|discriminate]. lra. }
  split.
  - intros j Hj Hji. destruct (Z.eq_dec j i) as [->|].
    + rewrite (isR_lt _ _ _ _ Ri Ri). apply Rlt_bool_false. lra.
    + specialize (Hlast j Hj ltac:(lia)). destruct (sig_finite j Hj) as (rj & Rj & _).
      rewrite (isR_lt _ _ _ _ Rj Ri) in Hlast. rewrite (isR_lt _ _ _ _ Ri Rj). apply Rlt_bool_false.
      destruct (Rlt_bool_spec rj ri); [lra|discriminate].
  - exact Hlast.
Qed.

Lemma best_step_no i mx t : candidate i -> best i mx t -> dlt mx (sig i) = false -> best (i + 1) mx t.
Proof.
  intros Hc [(-> & -> & Hb)|(Ht & Hti & -> & Hb & Hs)] Hlt.
  - exfalso. destruct (sig_finite i Hc) as (ri & Ri & Hr).
    rewrite (isR_lt _ _ _ _ (isR_ofZ (-1) ltac:(lia)) Ri) in Hlt.
    destruct (Rlt_bool_spec (-1) ri); [discriminate|lra].
  - right. split; [exact Ht|]. split; [lia|]. split; [reflexivity|]. split; [|exact Hs].
    intros j Hj Hji. destruct (Z.eq_dec j i) as [->|]; [exact Hlt|apply Hb; auto; lia].
Qed.

Lemma best_step_skip i mx t : ~ candidate i -> best i mx t -> best (i + 1) mx t.
Proof.
  intros Hc [(-> & -> & Hb)|(Ht & Hti & -> & Hb & Hs)].
  - left. split; [reflexivity|]. split; [reflexivity|]. intros j Hj. specialize (Hb j Hj).
    destruct (Z.eq_dec j i) as [->|]; [tauto|lia].
  - right. split; [exact Ht|]. split; [lia|]. split; [reflexivity|]. split; [|exact Hs].
    intros j Hj Hji. destruct (Z.eq_dec j i) as [->|]; [tauto|apply Hb; auto; lia].
Qed.

Lemma best_end i mx t : best i mx t -> (forall j, i <= j -> ~ candidate j) -> best 256 mx t.
Proof.
  intros [(-> & -> & Hb)|(Ht & Hti & -> & Hb & Hs)] Hn.
  - left. split; [reflexivity|]. split; [reflexivity|]. intros j Hj. elim (Hn j (Hb j Hj) Hj).
  - right. split; [exact Ht|]. split; [destruct Ht as (Ht & _); lia|]. split; [reflexivity|]. split; [|exact Hs].
    intros j Hj _. destruct (Z_lt_dec j i); [apply Hb; auto|]. elim (Hn j ltac:(lia) Hj).
Qed.

Lemma otsu_best n : forall i l mx t st,
  0 <= i -> i + Z.of_nat n = 256 -> length l = n ->
  (forall k, 0 <= k < Z.of_nat n -> zth l k = zth hist (i + k)) ->
  st = u32 (value_to hist (i - 1)) \/ count_to hist (i - 1) = 0 /\ st = 0 ->
  count_to hist (i - 1) < P \/ P = 0 ->
  best i mx t ->
  exists mx', best 256 mx' (otsu P S l i st (count_to hist (i - 1)) mx t).
Proof.
  induction n as [|n IH]; intros i l mx t st Hi Hin Hl Hz Hst Hlt Hb.
  - destruct l; [|discriminate]. exists mx. replace i with 256 in Hb by lia. exact Hb.
  - destruct l as [|v l]; [discriminate|]. cbn [length] in Hl.
    assert (Hv : v = zth hist i).
    { specialize (Hz 0 ltac:(lia)). rewrite Z.add_0_r in Hz. exact Hz. }
    pose proof (prefix_step hist i Hi) as Hp. pose proof (prefix_sum_step hist i Hi) as Hps.
    pose proof (prefix_mono i 255 ltac:(lia) ltac:(lia)) as Hm. fold P in Hm.
    pose proof (prefix_mono (-1) (i - 1) ltac:(lia) ltac:(lia)) as Hm0. rewrite prefix_m1 in Hm0.
    pose proof (Hpos i ltac:(lia)) as Hvp.
    cbn [otsu]. rewrite Hv. rewrite <- Hp. rewrite u32_small by lia.
    destruct (Z.eqb_spec (count_to hist i) P) as [He|Hne].
    + exists mx. apply (best_end i); [exact Hb|]. intros j Hj ((Hj1 & Hj2) & Hj3).
      pose proof (prefix_mono i j ltac:(lia) ltac:(lia)). lia.
    + assert (Hnext : forall mx' t' st',
        (st' = u32 (value_to hist i) \/ count_to hist i = 0 /\ st' = 0) ->
        best (i + 1) mx' t' ->
        exists mx'', best 256 mx'' (otsu P S l (i + 1) st' (count_to hist i) mx' t')).
      { intros mx' t' st' Hst' Hb'. specialize (IH (i + 1) l mx' t' st').
        replace (i + 1 - 1) with i in IH by lia. apply IH; auto; try lia.
        intros k Hk. specialize (Hz (k + 1) ltac:(lia)).
        replace (i + 1 + k) with (i + (k + 1)) by lia. rewrite <- Hz. unfold zth.
        replace (Z.to_nat (k + 1)) with (Datatypes.S (Z.to_nat k)) by lia. reflexivity. }
      destruct (Z.ltb_spec 0 (count_to hist i)) as [Hpi|Hpi].
      * assert (Hst2 : u32 (st + u32 (i * zth hist i)) = u32 (value_to hist i)).
        { destruct Hst as [-> | (Hz0 & ->)].
          - rewrite Hps. unfold u32. rewrite <- Zplus_mod. reflexivity.
          - assert (Hzero : forall k, -1 <= k -> k <= i - 1 -> value_to hist k = 0).
            { intros k Hk. replace k with (-1 + Z.of_nat (Z.to_nat (k + 1))) by lia.
              generalize (Z.to_nat (k + 1)) as q. clear k Hk. induction q as [|q IHq]; intros Hk; [reflexivity|].
              rewrite prefix_sum_step by lia.
              replace (-1 + Z.of_nat (Datatypes.S q) - 1) with (-1 + Z.of_nat q) by lia.
              rewrite IHq by lia. set (k := -1 + Z.of_nat (Datatypes.S q)) in *.
              pose proof (prefix_step hist k ltac:(lia)). pose proof (Hpos k ltac:(lia)).
              pose proof (prefix_mono k (i - 1) ltac:(lia) ltac:(lia)).
              pose proof (prefix_mono (-1) (k - 1) ltac:(lia) ltac:(lia)). rewrite prefix_m1 in *.
              replace (zth hist k) with 0 by lia. lia. }
            rewrite Hps, (Hzero (i - 1)) by lia. unfold u32. rewrite Zplus_mod_idemp_r. reflexivity. }
        rewrite Hst2. fold (sig i).
        assert (Hc : candidate i) by (split; [lia|]; lia).
        destruct (dlt mx (sig i)) eqn:Ed.
        -- replace (u8 i) with i by (unfold u8; lia).
           apply Hnext; [left; reflexivity|]. apply (best_step_yes i mx t); assumption.
        -- apply Hnext; [left; reflexivity|]. apply best_step_no; assumption.
      * apply Hnext.
        -- assert (count_to hist i = 0) by lia. destruct Hst as [-> | (Hz0 & ->)]; [|right; auto].
           left. rewrite Hps. replace (zth hist i) with 0 by lia. f_equal. lia.
        -- apply best_step_skip; [|exact Hb]. intros (_ & Hx). lia.
Qed.
End Search.

Lemma prefix_sum_ext l l' i : (forall k, 0 <= k <= i -> zth l k = zth l' k) -> value_to l i = value_to l' i.
Proof. intros H. apply zsum_ext. intros k Hk. fold (zth l k) (zth l' k). rewrite H by lia. reflexivity. Qed.

Lemma count_fold hist n : forall i l, 0 <= i -> length l = n ->
  (forall k, 0 <= k < Z.of_nat n -> zth l k = zth hist (i + k)) ->
  fold_left (fun c v => u32 (c + v)) l (u32 (count_to hist (i - 1))) = u32 (count_to hist (i + Z.of_nat n - 1)).
Proof.
  induction n as [|n IH]; intros i l Hi Hl Hz.
  - destruct l; [|discriminate]. cbn [fold_left]. f_equal. f_equal. lia.
  - destruct l as [|v l]; [discriminate|]. cbn [fold_left length] in *.
    assert (Hv : v = zth hist i).
    { specialize (Hz 0 ltac:(lia)). rewrite Z.add_0_r in Hz. exact Hz. }
    replace (u32 (u32 (count_to hist (i - 1)) + v)) with (u32 (count_to hist (i + 1 - 1))).
    + rewrite IH; try lia.
      * f_equal. f_equal. lia.
      * intros k Hk. specialize (Hz (k + 1) ltac:(lia)).
        replace (i + 1 + k) with (i + (k + 1)) by lia. rewrite <- Hz. unfold zth.
        replace (Z.to_nat (k + 1)) with (Datatypes.S (Z.to_nat k)) by lia. reflexivity.
    + replace (i + 1 - 1) with i by lia. rewrite (prefix_step hist i Hi), Hv. unfold u32.
      rewrite Zplus_mod_idemp_l. reflexivity.
Qed.

Lemma sum_fold hist n : forall i l, 0 <= i -> length l = n ->
  (forall k, 0 <= k < Z.of_nat n -> zth l k = zth hist (i + k)) ->
  fold_left (fun s v => (fst s + 1, u32 (snd s + u32 (fst s * v)))) l (i, u32 (value_to hist (i - 1)))
  = (i + Z.of_nat n, u32 (value_to hist (i + Z.of_nat n - 1))).
Proof.
  induction n as [|n IH]; intros i l Hi Hl Hz.
  - destruct l; [|discriminate]. cbn [fold_left]. f_equal; [lia|]. f_equal. f_equal. lia.
  - destruct l as [|v l]; [discriminate|]. cbn [fold_left length fst snd] in *.
    assert (Hv : v = zth hist i).
    { specialize (Hz 0 ltac:(lia)). rewrite Z.add_0_r in Hz. exact Hz. }
    replace (u32 (u32 (value_to hist (i - 1)) + u32 (i * v))) with (u32 (value_to hist (i + 1 - 1))).
    + rewrite IH; try lia.
      * f_equal; [lia|]. f_equal. f_equal. lia.
      * intros k Hk. specialize (Hz (k + 1) ltac:(lia)).
        replace (i + 1 + k) with (i + (k + 1)) by lia. rewrite <- Hz. unfold zth.
        replace (Z.to_nat (k + 1)) with (Datatypes.S (Z.to_nat k)) by lia. reflexivity.
    + replace (i + 1 - 1) with i by lia. rewrite (prefix_sum_step hist i Hi), Hv. unfold u32.
      rewrite <- Zplus_mod. reflexivity.
Qed.

Lemma GetThreshold_ok hist :
  length hist = 256%nat -> (forall k, 0 <= k < 256 -> 0 <= zth hist k) -> count_to hist 255 < W32 ->
  exists t mx, GetThreshold hist = Ok t /\ best hist (u32 (value_to hist 255)) 256 mx t.
Proof.
  intros Hl Hp HP. unfold GetThreshold. rewrite Hl. cbn [Z.of_nat Z.eqb].
  replace (Z.of_nat 256 =? 256) with true by reflexivity.
  assert (Hz : forall k, 0 <= k < Z.of_nat 256 -> zth hist k = zth hist (0 + k)) by (intros; f_equal; lia).
  pose proof (count_fold hist 256 0 hist (Z.le_refl 0) Hl Hz) as HC.
  pose proof (sum_fold hist 256 0 hist (Z.le_refl 0) Hl Hz) as HS.
  change (u32 (count_to hist (0 - 1))) with 0 in HC. change (u32 (value_to hist (0 - 1))) with 0 in HS.
  rewrite HC, HS. cbn [snd]. change (0 + Z.of_nat 256 - 1) with 255.
  pose proof (prefix_mono hist Hp (-1) 255 ltac:(lia) ltac:(lia)) as H0. rewrite prefix_m1 in H0.
  rewrite (u32_small (count_to hist 255)) by lia.
  assert (B0 : best hist (u32 (value_to hist 255)) 0 (dofZ (-1)) 0).
  { left. split; [reflexivity|]. split; [reflexivity|]. intros j (Hj & _). lia. }
  assert (P0 : count_to hist (0 - 1) < count_to hist 255 \/ count_to hist 255 = 0).
  { change (count_to hist (0 - 1)) with 0. lia. }
  destruct (otsu_best hist Hp HP (u32 (value_to hist 255)) 256 0 hist (dofZ (-1)) 0 0 (Z.le_refl 0) eq_refl Hl Hz
              (or_intror (conj eq_refl eq_refl)) P0 B0) as (mx & Hb).
  change (count_to hist (0 - 1)) with 0 in Hb. eexists; exists mx. split; [reflexivity|exact Hb].
Qed.

(** ** Accuracy: the double formula against the exact variance *)

(** The between-class variance for class sizes t and P - t and value sums s and R. *)
Definition variance (P t s R : Z) : Rdefinitions.R :=
  (IZR t / IZR P * (1 - IZR t / IZR P)
   * (IZR s / IZR t - IZR R / IZR (P - t)) * (IZR s / IZR t - IZR R / IZR (P - t)))%R.

Lemma ratio_bound p q k : 0 <= p -> 0 < q -> 0 <= k -> p <= k * q -> (0 <= IZR p / IZR q <= IZR k)%R.
Proof.
  intros Hp Hq Hk H. assert (Hq0 : (0 < IZR q)%R) by (apply IZR_lt; lia). split.
  - apply Rmult_le_pos; [apply IZR_le; lia|]. left. apply Rinv_0_lt_compat. exact Hq0.
  - apply Rmult_le_reg_r with (IZR q); [exact Hq0|].
    unfold Rdiv. rewrite Rmult_assoc, Rinv_l, Rmult_1_r by lra. rewrite <- mult_IZR. apply IZR_le. exact H.
Qed.

Lemma sigma_error P t s R :
  0 < t < P -> P < W32 -> 0 <= s <= 255 * t -> 0 <= R <= 255 * (P - t) -> s + R < W32 ->
  exists r, isR (sigma_of P (s + R) t s) r /\ (Rabs (r - variance P t s R) <= bpow radix2 (-32))%R.
Proof.
  intros Ht HP Hs HR HSR.
  assert (HW : W32 = 2 ^ 32) by reflexivity.
  unfold sigma_of. rewrite (u32_small (P - t)) by lia. rewrite (u32_small (s + R - s)) by lia. rewrite HW in *.
  replace (s + R - s) with R by lia. unfold variance.
  destruct (divZ_bound t P 0) as (D1 & N1 & B1); try lia.
  destruct (divZ_bound s t 8) as (D2 & N2 & B2); try lia; try nia.
  destruct (divZ_bound R (P - t) 8) as (D3 & N3 & B3); try lia; try nia.
  pose proof (ratio_bound t P 1 ltac:(lia) ltac:(lia) ltac:(lia) ltac:(lia)) as Q1.
  pose proof (ratio_bound s t 255 ltac:(lia) ltac:(lia) ltac:(lia) ltac:(lia)) as Q2.
  pose proof (ratio_bound R (P - t) 255 ltac:(lia) ltac:(lia) ltac:(lia) ltac:(lia)) as Q3.
  set (w := (IZR t / IZR P)%R) in *. set (p2 := (IZR s / IZR t)%R) in *.
  set (p3 := (IZR R / IZR (P - t))%R) in *.
  assert (E1 : (Rabs (rnd w - w) <= bpow radix2 (0 - 53))%R).
  { apply rnd_error; [lia|]. rewrite Rabs_pos_eq by lra. simpl. lra. }
  assert (E2 : (Rabs (rnd p2 - p2) <= bpow radix2 (8 - 53))%R).
  { apply rnd_error; [lia|]. rewrite Rabs_pos_eq by lra. simpl. lra. }
  assert (E3 : (Rabs (rnd p3 - p3) <= bpow radix2 (8 - 53))%R).
  { apply rnd_error; [lia|]. rewrite Rabs_pos_eq by lra. simpl. lra. }
  clearbody w p2 p3. set (w1 := rnd w) in *. set (q2 := rnd p2) in *. set (q3 := rnd p3) in *.
  clearbody w1 q2 q3.
  rewrite Rabs_pos_eq in B1, B2, B3 by assumption.
  change (bpow radix2 0) with 1%R in B1. change (bpow radix2 8) with 256%R in B2, B3.
  (* the difference of the means *)
  assert (B23 : (Rabs (q2 - q3) <= bpow radix2 8)%R).
  { change (bpow radix2 8) with 256%R. apply Rabs_le. lra. }
  assert (Da : isR (dsub (ddiv (dofZ s) (dofZ t)) (ddiv (dofZ R) (dofZ (P - t)))) (rnd (q2 - q3))).
  { apply isR_sub; auto. eapply bound_big; [|apply (rnd_bound _ 8); [lia|exact B23]]. lia. }
  pose proof (rnd_bound _ 8 ltac:(lia) B23) as Ba.
  pose proof (near_rnd _ _ _ 8 ltac:(lia) (near_sub _ _ _ _ _ _ E2 E3) B23) as Ea.
  set (a := rnd (q2 - q3)) in *. clearbody a.
  (* the weights *)
  assert (Bm : (Rabs (1 - w1) <= bpow radix2 0)%R) by (change (bpow radix2 0) with 1%R; apply Rabs_le; lra).
  assert (Dm : isR (dsub (dofZ 1) (ddiv (dofZ t) (dofZ P))) (rnd (1 - w1))).
  { apply isR_sub; [apply isR_ofZ; lia|exact D1|]. eapply bound_big; [|apply (rnd_bound _ 0); [lia|exact Bm]]. lia. }
  pose proof (rnd_bound _ 0 ltac:(lia) Bm) as Bv.
  assert (E0 : (Rabs (1 - 1) <= 0)%R) by (rewrite Rminus_eq_0, Rabs_R0; lra).
  pose proof (near_rnd _ _ _ 0 ltac:(lia) (near_sub _ _ _ _ _ _ E0 E1) Bm) as Ev.
  set (v := rnd (1 - w1)) in *. clearbody v.
  assert (Bw1 : (Rabs w1 <= 1)%R) by (rewrite Rabs_pos_eq; lra).
  assert (Bw : (Rabs w <= 1)%R) by (rewrite Rabs_pos_eq; lra).
  assert (Buv : (Rabs (w1 * v) <= bpow radix2 0)%R).
  { change (bpow radix2 0) with 1%R in *. rewrite Rabs_mult. rewrite <- (Rmult_1_l 1).
    apply Rmult_le_compat; auto using Rabs_pos. }
  pose proof (mul_bound _ _ _ _ 0 0 D1 Dm Bw1 Bv ltac:(lia)) as (Du & Bu). change (0 + 0) with 0 in Bu.
  pose proof (near_rnd _ _ _ 0 ltac:(lia) (near_mul _ _ _ _ _ _ _ _ E1 Ev Bw Bv) Buv) as Eu.
  set (u := rnd (w1 * v)) in *. clearbody u.
  assert (Bww : (Rabs (w * (1 - w)) <= 1)%R).
  { rewrite Rabs_mult. rewrite <- (Rmult_1_l 1). apply Rmult_le_compat; auto using Rabs_pos.
    rewrite Rabs_pos_eq; lra. }
  (* the products *)
  pose proof (mul_bound _ _ _ _ 0 8 Du Da Bu Ba ltac:(lia)) as (Dx & Bx). change (0 + 8) with 8 in Bx.
  assert (Bux : (Rabs (u * a) <= bpow radix2 8)%R).
  { rewrite Rabs_mult. rewrite <- (Rmult_1_l (bpow radix2 8)). apply Rmult_le_compat; auto using Rabs_pos. }
  pose proof (near_rnd _ _ _ 8 ltac:(lia) (near_mul _ _ _ _ _ _ _ _ Eu Ea Bww Ba) Bux) as Ex.
  set (x := rnd (u * a)) in *. clearbody x.
  pose proof (mul_bound _ _ _ _ 8 8 Dx Da Bx Ba ltac:(lia)) as (Dz & Bz). change (8 + 8) with 16 in Bz.
  assert (Bxx : (Rabs (w * (1 - w) * (p2 - p3)) <= bpow radix2 8)%R).
  { rewrite Rabs_mult. rewrite <- (Rmult_1_l (bpow radix2 8)). apply Rmult_le_compat; auto using Rabs_pos.
    change (bpow radix2 8) with 256%R. apply Rabs_le. lra. }
  assert (Bxz : (Rabs (x * a) <= bpow radix2 16)%R).
  { rewrite Rabs_mult. replace (bpow radix2 16) with (bpow radix2 8 * bpow radix2 8)%R by (rewrite <- bpow_plus; reflexivity).
    apply Rmult_le_compat; auto using Rabs_pos. }
  pose proof (near_rnd _ _ _ 16 ltac:(lia) (near_mul _ _ _ _ _ _ _ _ Ex Ea Bxx Ba) Bxz) as Ez.
  exists (rnd (x * a)). split; [exact Dz|]. eapply Rle_trans; [exact Ez|].
  clear. simpl. lra.
Qed.

Lemma prefix_sum_bounds hist : (forall k, 0 <= k < 256 -> 0 <= zth hist k) ->
  forall i j, -1 <= i <= j -> j <= 255 ->
  0 <= value_to hist j - value_to hist i <= 255 * (count_to hist j - count_to hist i).
Proof.
  intros Hp i j Hij Hj. replace j with (i + Z.of_nat (Z.to_nat (j - i))) by lia.
  assert (Hb : i + Z.of_nat (Z.to_nat (j - i)) <= 255) by lia.
  revert Hb. generalize (Z.to_nat (j - i)) as n. induction n as [|n IH]; intros Hb.
  - replace (i + Z.of_nat 0) with i by lia. lia.
  - specialize (IH ltac:(lia)). set (k := i + Z.of_nat (Datatypes.S n)) in *.
    rewrite (prefix_step hist k), (prefix_sum_step hist k) by lia.
    replace (k - 1) with (i + Z.of_nat n) by lia. pose proof (Hp k ltac:(lia)). nia.
Qed.

(** ** The gamma table *)

Section Gamma.
Variables (a : double) (ra : R).
Hypothesis Ha : isR a ra.
Hypothesis Ha0 : (0 <= ra)%R.

(** The value of the formula, every operation rounded. *)
Definition formula (p : R) : R := rnd (rnd (rnd (ra * p) * 255) + / 2).

Lemma rnd_0 : rnd 0 = 0%R.
Proof. apply rnd_format. apply generic_format_0. Qed.
Lemma rnd_pos x : (0 <= x)%R -> (0 <= rnd x)%R.
Proof. intros H. rewrite <- rnd_0. apply rnd_le. exact H. Qed.
Lemma rnd_Z z : Z.abs z <= 2 ^ 53 -> rnd (IZR z) = IZR z.
Proof. intros H. apply rnd_format. apply format_IZR. exact H. Qed.

Lemma formula_pos p : (0 <= p)%R -> (0 <= formula p)%R.
Proof.
  intros Hp. apply rnd_pos. assert (0 <= rnd (rnd (ra * p) * 255))%R; [|lra].
  apply rnd_pos. apply Rmult_le_pos; [|lra]. apply rnd_pos. apply Rmult_le_pos; assumption.
Qed.

Lemma formula_le p q : (p <= q)%R -> (formula p <= formula q)%R.
Proof.
  intros H. apply rnd_le. apply Rplus_le_compat_r. apply rnd_le. apply Rmult_le_compat_r; [lra|].
  apply rnd_le. apply Rmult_le_compat_l; assumption.
Qed.

(** One entry of the table. *)
Definition entry_of (p : double) : res mem Z :=
  let data := dadd (dmul (dmul a p) (dofZ 255)) dhalf in
  if dlt data (dofZ 256) then cast_to 256 undefined data else Ok 255.

Lemma big_256 : (1024 < big)%R.
Proof.
  change 1024%R with (bpow radix2 10). apply bpow_lt. lia.
Qed.

Lemma entry_ok p rp : isR p rp -> (0 <= rp <= 1)%R ->
  entry_of p = Ok (Z.min 255 (Zfloor (formula rp))).
Proof.
  intros Hp Hr. unfold entry_of.
  assert (Hap : (0 <= ra * rp <= ra)%R).
  { split; [apply Rmult_le_pos; lra|]. rewrite <- (Rmult_1_r ra) at 2. apply Rmult_le_compat_l; lra. }
  assert (Hz : (0 <= rnd (ra * rp) <= ra)%R).
  { split; [apply rnd_pos; lra|]. rewrite <- (isR_format a ra Ha) at 2. apply rnd_le. lra. }
  assert (Dz : isR (dmul a p) (rnd (ra * rp))).
  { apply isR_mul; auto. rewrite Rabs_pos_eq by lra. pose proof (isR_big a ra Ha) as Hb.
    rewrite Rabs_pos_eq in Hb by lra. lra. }
  pose proof (formula_pos rp ltac:(lra)) as HF. unfold formula in *. set (z := rnd (ra * rp)) in *. clearbody z.
  pose proof (isR_ofZ 255 ltac:(lia)) as D255.
  assert (Hy0 : (0 <= rnd (z * 255))%R) by (apply rnd_pos; apply Rmult_le_pos; lra).
  pose proof big_256 as HB.
  assert (Hsat : (256 <= rnd (z * 255))%R -> (256 <= rnd (rnd (z * 255) + / 2))%R).
  { intros H. rewrite <- (rnd_Z 256) by lia. apply rnd_le. lra. }
  assert (Hfl : (256 <= rnd (rnd (z * 255) + / 2))%R -> Z.min 255 (Zfloor (rnd (rnd (z * 255) + / 2))) = 255).
  { intros H. apply Z.min_l. apply Zfloor_lub. simpl. lra. }
  assert (Hcase : isR (dmul (dmul a p) (dofZ 255)) (rnd (z * 255)) \/
                  infinite (dmul (dmul a p) (dofZ 255)) /\ (big <= rnd (z * 255))%R).
  { destruct (Rle_lt_or_eq_dec 0 z ltac:(lra)) as [Hzp|Hz0].
    - apply mul_over; auto. lra.
    - left. apply isR_mul; auto. rewrite <- Hz0, Rmult_0_l, rnd_0, Rabs_R0. lra. }
  destruct Hcase as [Dy|(Hinf & Hbig)].
  - destruct (add_half_over _ _ Dy Hy0) as [Dd|(Hinf & Hbig)].
    + rewrite (isR_lt _ _ _ _ Dd (isR_ofZ 256 ltac:(lia))).
      destruct (Rlt_bool_spec (rnd (rnd (z * 255) + / 2)) 256) as [Hlt|Hge].
      * unfold cast_to. rewrite (isR_trunc _ _ Dd). rewrite Ztrunc_floor by exact HF.
        assert (H0 : 0 <= Zfloor (rnd (rnd (z * 255) + / 2))) by (apply Zfloor_lub; exact HF).
        assert (H1 : Zfloor (rnd (rnd (z * 255) + / 2)) < 256).
        { apply lt_IZR. eapply Rle_lt_trans; [apply Zfloor_lb|exact Hlt]. }
        destruct (Z.leb_spec 0 (Zfloor (rnd (rnd (z * 255) + / 2)))); [|lia].
        destruct (Z.ltb_spec (Zfloor (rnd (rnd (z * 255) + / 2))) 256); [|lia].
        cbn [andb]. f_equal. lia.
      * rewrite Hfl by exact Hge. reflexivity.
    + rewrite Hfl by lra. rewrite Hinf. reflexivity.
  - assert (Hs : dlt (dadd (dmul (dmul a p) (dofZ 255)) dhalf) (dofZ 256) = false).
    { rewrite Hinf. reflexivity. }
    rewrite Hs. rewrite Hfl; [reflexivity|]. apply Hsat. lra.
Qed.

Lemma formula_error p : (0 <= p)%R ->
  (Rabs (IZR (Z.min 255 (Zfloor (formula p))) - Rmin 255 (255 * (ra * p))) <= / 2 + bpow radix2 (-40))%R.
Proof.
  intros Hp. pose proof (formula_pos p Hp) as HF.
  assert (Hx0 : (0 <= ra * p)%R) by (apply Rmult_le_pos; assumption).
  unfold formula in *. set (x := (ra * p)%R) in *. clearbody x.
  pose proof (rnd_pos x Hx0) as Hz0. set (z := rnd x) in *.
  assert (Hy0 : (0 <= rnd (z * 255))%R) by (apply rnd_pos; apply Rmult_le_pos; lra).
  assert (He : (x <= 2)%R -> (Rabs (rnd (rnd (z * 255) + / 2) - (255 * x + / 2)) <= bpow radix2 (-40))%R).
  { intros Hx.
    assert (E1 : (Rabs (z - x) <= bpow radix2 (1 - 53))%R).
    { apply rnd_error; [lia|]. rewrite Rabs_pos_eq by lra. simpl. lra. }
    assert (Bz : (z <= 2)%R) by (unfold z; rewrite <- (rnd_Z 2) by lia; apply rnd_le; exact Hx).
    clearbody z.
    assert (E2 : (Rabs (z * 255 - x * 255) <= bpow radix2 (1 - 53) * 255)%R).
    { replace (z * 255 - x * 255)%R with ((z - x) * 255)%R by ring. rewrite Rabs_mult.
      rewrite (Rabs_pos_eq 255) by lra. apply Rmult_le_compat_r; lra. }
    assert (B2 : (Rabs (z * 255) <= bpow radix2 9)%R) by (rewrite Rabs_pos_eq by lra; simpl; lra).
    pose proof (near_rnd _ _ _ 9 ltac:(lia) E2 B2) as E3.
    pose proof (rnd_bound _ 9 ltac:(lia) B2) as B3. set (y := rnd (z * 255)) in *. clearbody y.
    rewrite Rabs_pos_eq in B3 by exact Hy0. change (bpow radix2 9) with 512%R in B3.
    assert (E4 : (Rabs ((y + / 2) - (255 * x + / 2)) <= bpow radix2 (1 - 53) * 255 + bpow radix2 (9 - 53))%R).
    { replace (y + / 2 - (255 * x + / 2))%R with (y - x * 255)%R by ring. exact E3. }
    assert (B4 : (Rabs (y + / 2) <= bpow radix2 10)%R) by (rewrite Rabs_pos_eq by lra; simpl; lra).
    pose proof (near_rnd _ _ _ 10 ltac:(lia) E4 B4) as E5. eapply Rle_trans; [exact E5|]. simpl. lra. }
  assert (H40 : (0 < bpow radix2 (-40) < / 4)%R) by (simpl; lra).
  set (D := rnd (rnd (z * 255) + / 2)) in *.
  assert (HD : (2 < x)%R -> (256 <= D)%R).
  { intros Hx. assert (2 <= z)%R by (unfold z; rewrite <- (rnd_Z 2) by lia; apply rnd_le; lra).
    unfold D. rewrite <- (rnd_Z 256) by lia. apply rnd_le.
    assert (510 <= rnd (z * 255))%R; [|lra]. rewrite <- (rnd_Z 510) by lia. apply rnd_le. lra. }
  clearbody D. clear Hy0. clearbody z. clear z Hz0.
  pose proof (Zfloor_lb D) as F1. pose proof (Zfloor_ub D) as F2. rewrite <- plus_IZR in F2.
  destruct (Rlt_or_le 2 x) as [Hx|Hx].
  - specialize (HD Hx). rewrite Z.min_l by (apply Zfloor_lub; simpl; lra).
    rewrite Rmin_left by lra. rewrite Rminus_eq_0, Rabs_R0. lra.
  - specialize (He Hx). apply Rabs_le_inv in He.
    destruct (Z.le_gt_cases 255 (Zfloor D)) as [H|H].
    + rewrite Z.min_l by exact H. apply IZR_le in H.
      apply Rabs_le. unfold Rmin. destruct (Rle_dec 255 (255 * x)); lra.
    + rewrite Z.min_r by lia. rewrite plus_IZR in F2.
      assert (IZR (Zfloor D) <= 254)%R by (apply IZR_le; lia).
      apply Rabs_le. unfold Rmin. destruct (Rle_dec 255 (255 * x)); lra.
Qed.
End Gamma.
