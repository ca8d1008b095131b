(** Proofs about Rotate. *)
From Coq Require Import ZArith List Bool Reals Lia Lra.
From Flocq Require Import Core IEEE754.BinarySingleNaN.
From Verif Require Import Base Image Spec BaseProofs ImgFun ImgLemmas ImgProofs Double DoubleProofs Edge NumProofs
  ReduceProofs Warp WarpSpec WarpProofs.
Import ListNotations.
Open Scope Z_scope.

Lemma isR_opp x r : isR x r -> isR (dopp x) (- r).
Proof.
  intros (b & <- & F & <-). exists (Bopp b). split; [destruct b; reflexivity|].
  split; [rewrite is_finite_Bopp; exact F|]. apply B2R_Bopp.
Qed.

Lemma rnd_int_le x k : Z.abs k <= 2 ^ 53 -> (x <= IZR k)%R -> (rnd x <= IZR k)%R.
Proof. intros Hk H. rewrite <- (rnd_format (IZR k)) by (apply format_IZR; exact Hk). apply rnd_le. exact H. Qed.
Lemma rnd_int_ge x k : Z.abs k <= 2 ^ 53 -> (IZR k <= x)%R -> (IZR k <= rnd x)%R.
Proof. intros Hk H. rewrite <- (rnd_format (IZR k)) by (apply format_IZR; exact Hk). apply rnd_le. exact H. Qed.

(** ** The weighted mean *)

Lemma bp40 : bpow radix2 (-40) = (/ 1099511627776)%R.
Proof. simpl. lra. Qed.

Lemma term_value p a b ra rb A B : 0 <= p <= 255 -> isR a ra -> isR b rb -> (0 <= ra <= 1)%R -> (0 <= rb <= 1)%R ->
  (0 <= A <= 1)%R -> (0 <= B <= 1)%R -> (Rabs (ra - A) <= eps52)%R -> (Rabs (rb - B) <= eps52)%R ->
  exists t, isR (dmul (dmul (dofZ p) a) b) t /\ (0 <= t <= 255)%R /\ (Rabs (t - IZR p * A * B) <= bpow radix2 (-40))%R.
Proof.
  intros Hp Ha Hb Ra Rb HA HB Na Nb.
  assert (Hp' : (0 <= IZR p <= 255)%R) by (split; apply IZR_le; lia).
  assert (P0 : (0 <= IZR p * ra <= 255)%R) by nra.
  assert (E8 : bpow radix2 8 = 256%R) by (simpl; lra).
  assert (B1 : (Rabs (IZR p * ra) <= bpow radix2 8)%R) by (rewrite E8, Rabs_pos_eq; lra).
  pose proof (rnd_error _ 8 ltac:(lia) B1) as E1. pose proof (rnd_pos _ (proj1 P0)) as Q0.
  pose proof (rnd_int_le _ 255 ltac:(lia) (proj2 P0)) as Q1.
  assert (I1 : isR (dmul (dofZ p) a) (rnd (IZR p * ra))).
  { apply isR_mul; auto; [apply isR_ofZ; lia|]. apply (bound_big _ 8); [lia|]. apply rnd_bound; [lia|exact B1]. }
  set (k := rnd (IZR p * ra)) in *.
  assert (P1 : (0 <= k * rb <= 255)%R) by nra.
  assert (B2 : (Rabs (k * rb) <= bpow radix2 8)%R) by (rewrite E8, Rabs_pos_eq; lra).
  pose proof (rnd_error _ 8 ltac:(lia) B2) as E2.
  exists (rnd (k * rb)). split; [|split].
  - apply isR_mul; auto. apply (bound_big _ 8); [lia|]. apply rnd_bound; [lia|exact B2].
  - split; [apply rnd_pos; lra|]. apply (rnd_int_le _ 255); [lia|lra].
  - replace (bpow radix2 (8 - 53)) with (/ 35184372088832)%R in E1, E2 by (simpl; lra).
    assert (N1 : (Rabs (k - IZR p * A) <= / 35184372088832 + 255 * eps52)%R).
    { replace (k - IZR p * A)%R with ((k - IZR p * ra) + IZR p * (ra - A))%R by ring.
      eapply Rle_trans; [apply Rabs_triang|]. apply Rplus_le_compat; [exact E1|].
      rewrite Rabs_mult, (Rabs_pos_eq (IZR p)) by lra.
      apply Rmult_le_compat; try lra. apply Rabs_pos. }
    assert (N2 : (Rabs (k * rb - IZR p * A * B) <= (/ 35184372088832 + 255 * eps52) * 1 + 255 * eps52)%R).
    { apply near_mul; auto; [|apply Rabs_le; lra]. rewrite Rabs_pos_eq; nra. }
    rewrite eps52_val in *. rewrite bp40. apply Rabs_le_inv in E2, N2. apply Rabs_le. lra.
Qed.

Lemma add_value x y a b A B d e : isR x a -> isR y b -> (0 <= a <= 1023)%R -> (0 <= b <= 255)%R ->
  (Rabs (a - A) <= d)%R -> (Rabs (b - B) <= e)%R ->
  isR (dadd x y) (rnd (a + b)) /\ (0 <= rnd (a + b) <= a + b + bpow radix2 (-40))%R /\
  (Rabs (rnd (a + b) - (A + B)) <= d + e + bpow radix2 (-40))%R.
Proof.
  intros Hx Hy Ha Hb Na Nb.
  assert (B1 : (Rabs (a + b) <= bpow radix2 11)%R).
  { replace (bpow radix2 11) with 2048%R by (simpl; lra). rewrite Rabs_pos_eq; lra. }
  pose proof (rnd_error _ 11 ltac:(lia) B1) as E1. pose proof (rnd_pos (a + b) ltac:(lra)) as P.
  assert (L : (bpow radix2 (11 - 53) <= bpow radix2 (-40))%R) by (apply bpow_le; lia).
  split; [|split].
  - apply isR_add; auto. apply (bound_big _ 11); [lia|]. apply rnd_bound; [lia|exact B1].
  - apply Rabs_le_inv in E1. lra.
  - apply Rabs_le_inv in E1, Na, Nb. apply Rabs_le. lra.
Qed.

Lemma mean_value cx cy f g p00 p10 p01 p11 : isR cx f -> isR cy g -> (0 <= f < 1)%R -> (0 <= g < 1)%R ->
  0 <= p00 <= 255 -> 0 <= p10 <= 255 -> 0 <= p01 <= 255 -> 0 <= p11 <= 255 ->
  exists r, rotate_px cx cy p00 p10 p01 p11 = Ok r /\ 0 <= r <= 255 /\
    (Rabs (IZR r - ((1 - f) * (1 - g) * IZR p00 + f * (1 - g) * IZR p10 + (1 - f) * g * IZR p01 + f * g * IZR p11))
     <= / 2 + tiny)%R.
Proof.
  intros Hx Hy Hf Hg P0 P1 P2 P3. unfold rotate_px. cbv zeta.
  assert (Z0 : forall c r, (Rabs (r - r) <= c)%R <-> (0 <= c)%R).
  { intros c r. replace (r - r)%R with 0%R by ring. rewrite Rabs_R0. tauto. }
  assert (Nf : (Rabs (f - f) <= bpow radix2 (-53))%R) by (apply Z0, bpow_ge_0).
  assert (Ng : (Rabs (g - g) <= bpow radix2 (-53))%R) by (apply Z0, bpow_ge_0).
  destruct (rest_value cx f f Hx ltac:(lra) Nf) as (Ix & Gx & Dx).
  destruct (rest_value cy g g Hy ltac:(lra) Ng) as (Iy & Gy & Dy).
  assert (Nf' : (Rabs (f - f) <= eps52)%R) by (apply Z0, bpow_ge_0).
  assert (Ng' : (Rabs (g - g) <= eps52)%R) by (apply Z0, bpow_ge_0).
  destruct (term_value p00 _ _ _ _ (1 - f) (1 - g) P0 Ix Iy) as (a & Ia & Ra & Na); try assumption; try lra.
  destruct (term_value p10 _ _ _ _ f (1 - g) P1 Hx Iy) as (b & Ib & Rb & Nb); try assumption; try lra.
  destruct (term_value p01 _ _ _ _ (1 - f) g P2 Ix Hy) as (c & Ic & Rc & Nc); try assumption; try lra.
  destruct (term_value p11 _ _ _ _ f g P3 Hx Hy) as (d & Id & Rd & Nd); try assumption; try lra.
  assert (S : (0 <= IZR p00 * (1 - f) * (1 - g) + IZR p10 * f * (1 - g) + IZR p01 * (1 - f) * g + IZR p11 * f * g <= 255)%R).
  { assert (0 <= IZR p00 <= 255)%R by (split; apply IZR_le; lia).
    assert (0 <= IZR p10 <= 255)%R by (split; apply IZR_le; lia).
    assert (0 <= IZR p01 <= 255)%R by (split; apply IZR_le; lia).
    assert (0 <= IZR p11 <= 255)%R by (split; apply IZR_le; lia).
    assert (M : forall p s t, (0 <= p <= 255)%R -> (0 <= s)%R -> (0 <= t)%R -> (0 <= p * s * t <= 255 * (s * t))%R).
    { clear. intros p s t Hp Hs Ht. assert (0 <= s * t)%R by (apply Rmult_le_pos; lra).
      rewrite Rmult_assoc. split; [apply Rmult_le_pos; lra|]. apply Rmult_le_compat_r; lra. }
    pose proof (M (IZR p00) (1 - f)%R (1 - g)%R). pose proof (M (IZR p10) f (1 - g)%R).
    pose proof (M (IZR p01) (1 - f)%R g). pose proof (M (IZR p11) f g).
    assert (255 * ((1 - f) * (1 - g)) + 255 * (f * (1 - g)) + 255 * ((1 - f) * g) + 255 * (f * g) = 255)%R by ring.
    lra. }
  destruct (add_value _ _ a b _ _ _ _ Ia Ib ltac:(lra) Rb Na Nb) as (I1 & R1 & N1).
  assert (T : (bpow radix2 (-40) <= / 1000)%R) by (rewrite bp40; lra).
  destruct (add_value _ _ _ c _ _ _ _ I1 Ic ltac:(lra) Rc N1 Nc) as (I2 & R2 & N2).
  destruct (add_value _ _ _ d _ _ _ _ I2 Id ltac:(lra) Rd N2 Nd) as (I3 & R3 & N3).
  assert (Nh : (Rabs (/ 2 - / 2) <= 0)%R) by (apply Z0; lra).
  destruct (add_value _ _ _ (/ 2)%R _ _ _ _ I3 isR_half ltac:(lra) ltac:(lra) N3 Nh) as (I4 & R4 & N4).
  set (s := rnd (rnd (rnd (rnd (a + b) + c) + d) + / 2)) in *.
  assert (Ts : (Rabs (s - (IZR p00 * (1 - f) * (1 - g) + IZR p10 * f * (1 - g) + IZR p01 * (1 - f) * g + IZR p11 * f * g + / 2)) <= tiny)%R).
  { eapply Rle_trans; [exact N4|]. rewrite bp40, tiny_val. lra. }
  unfold cast_to. rewrite (isR_trunc _ _ I4). rewrite Ztrunc_floor by lra.
  pose proof (Zfloor_lb s) as F1. pose proof (Zfloor_ub s) as F2.
  assert (Q0 : 0 <= Zfloor s) by (apply Zfloor_lub; lra).
  rewrite tiny_val in *. apply Rabs_le_inv in Ts.
  assert (Q1 : Zfloor s < 256) by (apply lt_IZR; lra).
  destruct (Z.leb_spec 0 (Zfloor s)); [|lia]. destruct (Z.ltb_spec (Zfloor s) 256); [|lia]. cbn [andb].
  exists (Zfloor s). split; [reflexivity|]. split; [lia|].
  apply Rabs_le. split; lra.
Qed.

(** ** One pixel *)

Lemma rotate_at_value m t inp xi yi w h x y u v :
  wf m inp -> icc inp = 1 -> roi_in inp xi yi w h -> bytes m inp ->
  same_len m t -> (forall i j, 0 <= i < w -> 0 <= j < h -> pixel t inp (xi + i) (yi + j) 0 = pixel m inp (xi + i) (yi + j) 0) ->
  isR x u -> isR y v -> (Rabs u < IZR W32)%R -> (Rabs v < IZR W32)%R ->
  exists r, rotate_at t inp xi yi (u32 (u32 (xi + w) - 1)) (u32 (u32 (yi + h) - 1)) x y = Ok r /\
    rotate_at m inp xi yi (u32 (u32 (xi + w) - 1)) (u32 (u32 (yi + h) - 1)) x y = Ok r /\
    sampled tiny m inp xi yi w h u v r.
Proof.
  intros W C R B L Hg Hx Hy Bu Bv.
  pose proof (wf_rs _ _ W) as Hrs. rewrite C in Hrs. pose proof (wf_size _ _ W) as Hsz.
  pose proof (wf_w _ _ W) as W0. pose proof (wf_h _ _ W) as H0.
  destruct R as [R1 R2 R3 R4 R5 R6].
  assert (HW : iw inp < W32) by nia. assert (HH : ih inp < W32) by nia.
  rewrite (u32_small (xi + w)) by lia. rewrite (u32_small (yi + h)) by lia.
  rewrite (u32_small (xi + w - 1)) by lia. rewrite (u32_small (yi + h - 1)) by lia.
  unfold rotate_at, sampled, surrounded.
  unfold W32 in HW, HH.
  rewrite (isR_lt _ _ _ _ Hx (isR_ofZ xi ltac:(lia))), (isR_lt _ _ _ _ Hy (isR_ofZ yi ltac:(lia))).
  assert (low : forall r k, (r < IZR k)%R -> Zfloor r < k).
  { intros r k Hr. apply lt_IZR. eapply Rle_lt_trans; [apply Zfloor_lb|exact Hr]. }
  destruct (Rlt_bool_spec u (IZR xi)) as [Hu|Hu]; cbn [orb].
  { exists 0. split; [reflexivity|]. split; [reflexivity|]. pose proof (low _ _ Hu). split; [lia|reflexivity]. }
  destruct (Rlt_bool_spec v (IZR yi)) as [Hv|Hv]; cbn [orb].
  { exists 0. split; [reflexivity|]. split; [reflexivity|]. pose proof (low _ _ Hv). split; [lia|reflexivity]. }
  assert (U0 : (0 <= u)%R) by (eapply Rle_trans; [|exact Hu]; apply IZR_le; lia).
  assert (V0 : (0 <= v)%R) by (eapply Rle_trans; [|exact Hv]; apply IZR_le; lia).
  assert (U1 : xi <= Zfloor u) by (apply Zfloor_lub; exact Hu).
  assert (V1 : yi <= Zfloor v) by (apply Zfloor_lub; exact Hv).
  rewrite Rabs_pos_eq in Bu, Bv by assumption.
  pose proof (low _ _ Bu) as U2. pose proof (low _ _ Bv) as V2.
  assert (Tu : Ztrunc u = Zfloor u) by (apply Ztrunc_floor; exact U0).
  assert (Tv : Ztrunc v = Zfloor v) by (apply Ztrunc_floor; exact V0).
  unfold cast_to. rewrite (isR_trunc _ _ Hx), (isR_trunc _ _ Hy), Tu, Tv.
  destruct (Z.leb_spec 0 (Zfloor u)); [|lia]. destruct (Z.ltb_spec (Zfloor u) W32); [|lia]. cbn [andb bind].
  destruct (Z.leb_spec 0 (Zfloor v)); [|lia]. destruct (Z.ltb_spec (Zfloor v) W32); [|lia]. cbn [andb bind].
  destruct (Z.leb_spec (xi + w - 1) (Zfloor u)) as [Mu|Mu]; cbn [orb].
  { exists 0. split; [reflexivity|]. split; [reflexivity|]. split; [lia|reflexivity]. }
  destruct (Z.leb_spec (yi + h - 1) (Zfloor v)) as [Mv|Mv]; cbn [orb].
  { exists 0. split; [reflexivity|]. split; [reflexivity|]. split; [lia|reflexivity]. }
  cbv zeta.
  set (X := Zfloor u) in *. set (Y := Zfloor v) in *.
  assert (Ed : dataptr inp = ibase inp).
  { unfold dataptr, ibase. destruct (idata inp) eqn:E; auto. destruct (wf_data _ _ W E). }
  rewrite Ed, (u32_small (Y * irs inp)) by nia.
  assert (Ep : forall d, padd (padd (padd (ibase inp) (Y * irs inp)) X) d = padd (ibase inp) (Y * irs inp + X + d)).
  { intros d. rewrite !padd_padd. f_equal. lia. }
  assert (Epx : forall a b, px inp (X + a) (Y + b) 0 = padd (padd (padd (ibase inp) (Y * irs inp)) X) (b * irs inp + a)).
  { intros a b. rewrite Ep. unfold px, padd. cbn [fst snd]. rewrite C. f_equal. lia. }
  assert (Ld : forall a b, 0 <= a <= 1 -> 0 <= b <= 1 ->
     @load mem t (px inp (X + a) (Y + b) 0) = Ok (pixel m inp (X + a) (Y + b) 0) /\
     @load mem m (px inp (X + a) (Y + b) 0) = Ok (pixel m inp (X + a) (Y + b) 0) /\
     0 <= pixel m inp (X + a) (Y + b) 0 <= 255).
  { intros a b Ha Hb.
    assert (I : inb m (px inp (X + a) (Y + b) 0) = true) by (apply px_inb1; auto; lia).
    split; [|split].
    - rewrite load_ok by (rewrite (same_len_inb m t); auto). f_equal.
      specialize (Hg (X + a - xi) (Y + b - yi) ltac:(lia) ltac:(lia)).
      replace (xi + (X + a - xi)) with (X + a) in Hg by lia.
      replace (yi + (Y + b - yi)) with (Y + b) in Hg by lia. exact Hg.
    - rewrite load_ok by exact I. reflexivity.
    - specialize (B (X + a) (Y + b) 0 ltac:(lia) ltac:(lia) ltac:(lia)). lia. }
  destruct (Ld 0 0) as (A1 & A2 & A3); try lia. destruct (Ld 1 0) as (B1 & B2 & B3); try lia.
  destruct (Ld 0 1) as (C1 & C2 & C3); try lia. destruct (Ld 1 1) as (D1 & D2 & D3); try lia.
  rewrite Epx in A1, A2, B1, B2, C1, C2, D1, D2.
  replace (0 * irs inp + 0) with 0 in A1, A2 by lia. rewrite padd_0 in A1, A2.
  replace (0 * irs inp + 1) with 1 in B1, B2 by lia.
  replace (1 * irs inp + 0) with (irs inp) in C1, C2 by lia.
  replace (1 * irs inp + 1) with (irs inp + 1) in D1, D2 by lia.
  rewrite !Z.add_0_r in *.
  rewrite A1, A2. cbn [bind]. rewrite B1, B2. cbn [bind]. rewrite C1, C2. cbn [bind]. rewrite D1, D2. cbn [bind].
  assert (Fx : isR (dsub x (dofZ X)) (u - IZR X)).
  { pose proof (frac_format x u Hx) as F. rewrite Tu in F. fold X in F.
    rewrite <- (rnd_format (u - IZR X)) by exact F.
    apply isR_sub; auto; [apply isR_ofZ; unfold W32 in *; lia|]. rewrite rnd_format by exact F.
    apply (bound_big _ 0); [lia|]. simpl bpow. unfold X. pose proof (Zfloor_lb u). pose proof (Zfloor_ub u). apply Rabs_le. lra. }
  assert (Fy : isR (dsub y (dofZ Y)) (v - IZR Y)).
  { pose proof (frac_format y v Hy) as F. rewrite Tv in F. fold Y in F.
    rewrite <- (rnd_format (v - IZR Y)) by exact F.
    apply isR_sub; auto; [apply isR_ofZ; unfold W32 in *; lia|]. rewrite rnd_format by exact F.
    apply (bound_big _ 0); [lia|]. simpl bpow. unfold Y. pose proof (Zfloor_lb v). pose proof (Zfloor_ub v). apply Rabs_le. lra. }
  assert (G1 : (0 <= u - IZR X < 1)%R) by (unfold X; pose proof (Zfloor_lb u); pose proof (Zfloor_ub u); lra).
  assert (G2 : (0 <= v - IZR Y < 1)%R) by (unfold Y; pose proof (Zfloor_lb v); pose proof (Zfloor_ub v); lra).
  destruct (mean_value _ _ _ _ _ _ _ _ Fx Fy G1 G2 A3 B3 C3 D3) as (r & Er & Rr & Nr).
  exists r. split; [exact Er|]. split; [exact Er|].
  split; [|lia]. intros _. split; [exact Rr|]. exact Nr.
Qed.

(** ** The positions *)

Definition times {A} (n : Z) (f : A -> A) (x : A) : A := Nat.iter (Z.to_nat n) f x.

Lemma times_succ {A} n f (x : A) : 0 <= n -> times (n + 1) f x = f (times n f x).
Proof. intros H. unfold times. rewrite Z2Nat.inj_add, Nat.add_comm by lia. reflexivity. Qed.

(** One step of a position: it moves by [d], to within 2^-21. *)
Definition steps (f : double -> double) (d : R) : Prop :=
  forall x r k, isR x r -> (Rabs r <= IZR k)%R -> 0 <= k < 2 ^ 31 ->
    exists r', isR (f x) r' /\ (Rabs r' <= IZR (k + 1))%R /\ (Rabs (r' - (r + d)) <= bpow radix2 (-21))%R.

Lemma round_step r k : (Rabs r <= IZR (k + 1))%R -> 0 <= k < 2 ^ 31 ->
  (Rabs (rnd r) < bpow radix2 1024)%R /\ (Rabs (rnd r) <= IZR (k + 1))%R /\ (Rabs (rnd r - r) <= bpow radix2 (-21))%R.
Proof.
  intros H Hk.
  assert (B : (Rabs r <= bpow radix2 32)%R).
  { eapply Rle_trans; [exact H|]. replace (bpow radix2 32) with (IZR (2 ^ 32)) by (simpl; reflexivity).
    apply IZR_le. lia. }
  split; [apply (bound_big _ 32); [lia|]; apply rnd_bound; [lia|exact B]|]. split.
  - apply Rabs_le_inv in H. apply Rabs_le. split; [|apply rnd_int_le; [lia|lra]].
    rewrite <- opp_IZR. apply rnd_int_ge; [lia|]. rewrite opp_IZR. lra.
  - apply (rnd_error _ 32); [lia|exact B].
Qed.

Lemma steps_add c d : isR c d -> (Rabs d <= 1)%R -> steps (fun x => dadd x c) d.
Proof.
  intros Hc Hd x r k Hx Hr Hk.
  assert (B : (Rabs (r + d) <= IZR (k + 1))%R).
  { rewrite plus_IZR. eapply Rle_trans; [apply Rabs_triang|]. lra. }
  destruct (round_step _ _ B Hk) as (P & Q & S). exists (rnd (r + d)).
  split; [apply isR_add; auto|]. split; assumption.
Qed.

Lemma steps_sub c d : isR c d -> (Rabs d <= 1)%R -> steps (fun x => dsub x c) (- d).
Proof.
  intros Hc Hd x r k Hx Hr Hk.
  assert (B : (Rabs (r - d) <= IZR (k + 1))%R).
  { rewrite plus_IZR. unfold Rminus. eapply Rle_trans; [apply Rabs_triang|]. rewrite Rabs_Ropp. lra. }
  destruct (round_step _ _ B Hk) as (P & Q & S). exists (rnd (r - d)).
  split; [apply isR_sub; auto|]. split; assumption.
Qed.

Lemma times_value f d n : steps f d -> forall x r k, isR x r -> (Rabs r <= IZR k)%R -> 0 <= k -> 0 <= n ->
  k + n <= 2 ^ 31 ->
  exists r', isR (times n f x) r' /\ (Rabs r' <= IZR (k + n))%R /\
    (Rabs (r' - (r + IZR n * d)) <= IZR n * bpow radix2 (-21))%R.
Proof.
  intros Hf x r k Hx Hr Hk Hn. pattern n. revert n Hn. apply natlike_ind.
  - intros _. exists r. split; [exact Hx|]. rewrite Z.add_0_r. split; [exact Hr|].
    replace (r - (r + 0 * d))%R with 0%R by ring. rewrite Rabs_R0. lra.
  - intros n Hn IH Hs. destruct IH as (r1 & I1 & B1 & N1); [lia|].
    destruct (Hf _ _ _ I1 B1) as (r2 & I2 & B2 & N2); [lia|].
    exists r2. unfold Z.succ. rewrite times_succ by exact Hn. split; [exact I2|]. split.
    { replace (k + (n + 1)) with (k + n + 1) by lia. exact B2. }
    rewrite plus_IZR. apply Rabs_le_inv in N1, N2. apply Rabs_le. lra.
Qed.

Definition near28 (r : R) : Prop := (Rabs r <= bpow radix2 28)%R.

(** The position of the first pixel. *)
Lemma start_value a b x y z ra rb rx ry rz : isR a ra -> isR b rb -> isR x rx -> isR y ry -> isR z rz ->
  (Rabs ra <= 1)%R -> (Rabs rb <= 1)%R -> near28 rx -> near28 ry -> near28 rz ->
  exists r, isR (dadd (dopp (dadd (dmul a x) (dmul b y))) z) r /\ (Rabs r <= IZR (2 ^ 30))%R /\
    (Rabs (r - (- (ra * rx + rb * ry) + rz)) <= bpow radix2 (-21))%R.
Proof.
  intros Ha Hb Hx Hy Hz Ba Bb Bx By Bz. unfold near28 in *.
  assert (P : forall s t, (Rabs s <= 1)%R -> (Rabs t <= bpow radix2 28)%R -> (Rabs (s * t) <= bpow radix2 28)%R).
  { intros s t Hs Ht. rewrite Rabs_mult. pose proof (Rabs_pos s). pose proof (Rabs_pos t). nra. }
  pose proof (P _ _ Ba Bx) as P1. pose proof (P _ _ Bb By) as P2.
  pose proof (rnd_error _ 28 ltac:(lia) P1) as E1. pose proof (rnd_error _ 28 ltac:(lia) P2) as E2.
  pose proof (rnd_bound _ 28 ltac:(lia) P1) as Q1. pose proof (rnd_bound _ 28 ltac:(lia) P2) as Q2.
  assert (D : forall n, bpow radix2 (n + 1) = (2 * bpow radix2 n)%R).
  { intros n. rewrite bpow_plus. simpl. lra. }
  assert (P3 : (Rabs (rnd (ra * rx) + rnd (rb * ry)) <= bpow radix2 29)%R).
  { replace 29 with (28 + 1) by lia. rewrite D. eapply Rle_trans; [apply Rabs_triang|]. lra. }
  pose proof (rnd_error _ 29 ltac:(lia) P3) as E3. pose proof (rnd_bound _ 29 ltac:(lia) P3) as Q3.
  set (k := rnd (rnd (ra * rx) + rnd (rb * ry))) in *.
  assert (L : (bpow radix2 28 <= bpow radix2 29)%R) by (apply bpow_le; lia).
  assert (P4 : (Rabs (- k + rz) <= bpow radix2 30)%R).
  { replace 30 with (29 + 1) by lia. rewrite D. eapply Rle_trans; [apply Rabs_triang|]. rewrite Rabs_Ropp. lra. }
  pose proof (rnd_error _ 30 ltac:(lia) P4) as E4. pose proof (rnd_bound _ 30 ltac:(lia) P4) as Q4.
  exists (rnd (- k + rz)). split; [|split].
  - apply isR_add; auto; [|apply (bound_big _ 30); [lia|exact Q4]].
    apply isR_opp. apply isR_add; [apply isR_mul|apply isR_mul|]; auto.
    + apply (bound_big _ 28); [lia|exact Q1].
    + apply (bound_big _ 28); [lia|exact Q2].
    + apply (bound_big _ 29); [lia|exact Q3].
  - eapply Rle_trans; [exact Q4|]. simpl. lra.
  - assert (T : (bpow radix2 (28 - 53) + bpow radix2 (28 - 53) + bpow radix2 (29 - 53) + bpow radix2 (30 - 53) <= bpow radix2 (-21))%R).
    { simpl. lra. }
    apply Rabs_le_inv in E1, E2, E3, E4. apply Rabs_le. lra.
Qed.

(** ** Rotate as a whole *)

Definition dreal (x : double) : R := SF2R radix2 x.
Lemma dreal_isR x r : isR x r -> dreal x = r.
Proof. intros (b & <- & F & <-). apply SF2R_B2SF. Qed.

Definition posX (ca sa X0 : double) (i j : Z) : double :=
  times i (fun x => dadd x ca) (times j (fun x => dadd x sa) X0).
Definition posY (ca sa Y0 : double) (i j : Z) : double :=
  times i (fun x => dsub x sa) (times j (fun x => dadd x ca) Y0).

Definition startX (ca sa cxo cyo cxi : double) : double := dadd (dopp (dadd (dmul ca cxo) (dmul sa cyo))) cxi.
Definition startY (ca sa cxo cyo cyi : double) : double :=
  dadd (dopp (dadd (dmul (dopp sa) cxo) (dmul ca cyo))) cyi.

Lemma pos_value (f g : double -> double) df dg X0 r0 i j :
  steps f df -> steps g dg -> isR X0 r0 -> (Rabs r0 <= IZR (2 ^ 30))%R -> 0 <= i -> 0 <= j -> i + j <= 2 ^ 30 ->
  exists r, isR (times i f (times j g X0)) r /\ (Rabs r < IZR W32)%R /\
    (Rabs (r - (r0 + IZR i * df + IZR j * dg)) <= IZR (i + j) * bpow radix2 (-21))%R.
Proof.
  intros Hf Hg H0 B0 Hi Hj Hs.
  destruct (times_value g dg j Hg X0 r0 (2 ^ 30) H0 B0) as (r1 & I1 & B1 & N1); try lia.
  destruct (times_value f df i Hf _ r1 _ I1 B1) as (r2 & I2 & B2 & N2); try lia.
  exists r2. split; [exact I2|]. split.
  - eapply Rle_lt_trans; [exact B2|]. apply IZR_lt. unfold W32. lia.
  - rewrite plus_IZR. apply Rabs_le_inv in N1, N2. apply Rabs_le. lra.
Qed.

(** The position in the input image that belongs to pixel ([i],[j]), to within the rounding of
    the running sums. *)
Definition located (r e : R) (i j : Z) : Prop := (Rabs (r - e) <= IZR (i + j + 1) * bpow radix2 (-21))%R.

Lemma Rotate_value m inp xi yi out xo yo w h ca sa c s cxi cyi cxo cyo axi ayi axo ayo :
  wf m inp -> wf m out -> icc inp = 1 -> icc out = 1 -> roi_in inp xi yi w h -> roi_in out xo yo w h ->
  bytes m inp -> disjoint inp xi yi w h out xo yo w h ->
  isR ca c -> isR sa s -> (Rabs c <= 1)%R -> (Rabs s <= 1)%R ->
  isR cxi axi -> isR cyi ayi -> isR cxo axo -> isR cyo ayo ->
  near28 axi -> near28 ayi -> near28 axo -> near28 ayo -> w + h <= 2 ^ 30 ->
  let P := fun i j => dreal (posX ca sa (startX ca sa cxo cyo cxi) i j) in
  let Q := fun i j => dreal (posY ca sa (startY ca sa cxo cyo cyi) i j) in
  exists (V : Z -> Z -> Z),
    writes (Rotate ca sa m inp xi yi cxi cyi out xo yo cxo cyo w h) m out xo yo w h (fun i j _ => V i j) /\
    forall i j, 0 <= i < w -> 0 <= j < h ->
      located (P i j) (c * (IZR i - axo) + s * (IZR j - ayo) + axi) i j /\
      located (Q i j) (- s * (IZR i - axo) + c * (IZR j - ayo) + ayi) i j /\
      sampled tiny m inp xi yi w h (P i j) (Q i j) (V i j).
Proof.
  intros W1 Wo C1 Co R1 Ro B D Hc Hs Bc Bs H1 H2 H3 H4 N1 N2 N3 N4 Hwh P Q.
  unfold Rotate, valid_roi2, is_gray. rewrite !(valid_roi_ok m) by assumption. rewrite C1, Co.
  cbn [andb Z.eqb GRAY_SCALE Pos.eqb negb]. cbv zeta.
  rewrite (row_ptr_origin m out xo yo w h 1) by (auto; lia).
  set (O := origin out xo yo 1).
  destruct (start_value ca sa cxo cyo cxi c s axo ayo axi) as (x0 & IX & BX & NX); auto.
  destruct (start_value (dopp sa) ca cxo cyo cyi (- s) c axo ayo ayi) as (y0 & IY & BY & NY);
    auto using isR_opp; [rewrite Rabs_Ropp; exact Bs|].
  fold (startX ca sa cxo cyo cxi) in *. fold (startY ca sa cxo cyo cyi) in *.
  set (X0 := startX ca sa cxo cyo cxi) in *. set (Y0 := startY ca sa cxo cyo cyi) in *.
  set (MX := u32 (u32 (xi + w) - 1)). set (MY := u32 (u32 (yi + h) - 1)).
  pose proof (roi_rows_small m out xo yo w h Wo Ro) as Hsm.
  assert (Rso : 0 < irs out) by (eapply wf_rs_pos; eauto).
  assert (Hw : 0 < w) by (destruct R1; lia). assert (Hh : 0 < h) by (destruct R1; lia).
  (* the positions *)
  assert (PX : forall i j, exists r, 0 <= i < w -> 0 <= j < h ->
     isR (posX ca sa X0 i j) r /\ (Rabs r < IZR W32)%R /\
     located r (c * (IZR i - axo) + s * (IZR j - ayo) + axi) i j).
  { intros i j. destruct (Z_lt_le_dec i 0); [exists 0%R; lia|]. destruct (Z_lt_le_dec j 0); [exists 0%R; lia|].
    destruct (Z_lt_le_dec i w); [|exists 0%R; lia]. destruct (Z_lt_le_dec j h); [|exists 0%R; lia].
    destruct (pos_value (fun x => dadd x ca) (fun x => dadd x sa) c s X0 x0 i j) as (r & A1 & A2 & A3);
      auto using steps_add; try lia.
    exists r. intros _ _. split; [exact A1|]. split; [exact A2|]. unfold located.
    rewrite (plus_IZR (i + j)). apply Rabs_le_inv in A3, NX. apply Rabs_le. lra. }
  assert (PY : forall i j, exists r, 0 <= i < w -> 0 <= j < h ->
     isR (posY ca sa Y0 i j) r /\ (Rabs r < IZR W32)%R /\
     located r (- s * (IZR i - axo) + c * (IZR j - ayo) + ayi) i j).
  { intros i j. destruct (Z_lt_le_dec i 0); [exists 0%R; lia|]. destruct (Z_lt_le_dec j 0); [exists 0%R; lia|].
    destruct (Z_lt_le_dec i w); [|exists 0%R; lia]. destruct (Z_lt_le_dec j h); [|exists 0%R; lia].
    destruct (pos_value (fun x => dsub x sa) (fun x => dadd x ca) (- s) c Y0 y0 i j) as (r & A1 & A2 & A3);
      auto using steps_add, steps_sub; try lia.
    exists r. intros _ _. split; [exact A1|]. split; [exact A2|]. unfold located.
    rewrite (plus_IZR (i + j)). apply Rabs_le_inv in A3, NY. apply Rabs_le. lra. }
  set (px_ := fun i j => dreal (posX ca sa X0 i j)) in *. set (py_ := fun i j => dreal (posY ca sa Y0 i j)) in *.
  change P with px_. change Q with py_. clear P Q.
  set (val := fun j i => match rotate_at m inp xi yi MX MY (posX ca sa X0 i j) (posY ca sa Y0 i j) with
                         | Ok v => v | _ => 0 end).
  exists (fun i j => val j i).
  assert (EX : forall i j, 0 <= i < w -> 0 <= j < h ->
     isR (posX ca sa X0 i j) (px_ i j) /\ (Rabs (px_ i j) < IZR W32)%R /\
     located (px_ i j) (c * (IZR i - axo) + s * (IZR j - ayo) + axi) i j).
  { intros i j Hi Hj. destruct (PX i j) as (r & Hr). destruct (Hr Hi Hj) as (A1 & A2 & A3).
    unfold px_. rewrite (dreal_isR _ _ A1). auto. }
  assert (EY : forall i j, 0 <= i < w -> 0 <= j < h ->
     isR (posY ca sa Y0 i j) (py_ i j) /\ (Rabs (py_ i j) < IZR W32)%R /\
     located (py_ i j) (- s * (IZR i - axo) + c * (IZR j - ayo) + ayi) i j).
  { intros i j Hi Hj. destruct (PY i j) as (r & Hr). destruct (Hr Hi Hj) as (A1 & A2 & A3).
    unfold py_. rewrite (dreal_isR _ _ A1). auto. }
  set (cell := fun j i => padd O (j * irs out + i)).
  assert (Hin : forall j i, 0 <= j < h -> 0 <= i < w -> inb m (cell j i) = true).
  { intros j i Hj Hi. unfold cell, O. rewrite <- Co. apply (cell_inb m out xo yo w h); auto; rewrite ?Co; lia. }
  assert (Hone : forall j i j' i', 0 <= j < h -> 0 <= i < w -> 0 <= j' < h -> 0 <= i' < w ->
     cell j i = cell j' i' -> j = j' /\ i = i').
  { intros j i j' i' Hj Hi Hj' Hi'. unfold cell, O. rewrite <- Co.
    apply (cell_inj m out xo yo w h); auto; rewrite ?Co; lia. }
  assert (Hpx : forall i j, px out (xo + i) (yo + j) 0 = cell j i).
  { intros i j. unfold cell, O, origin, px, padd. cbn [fst snd]. rewrite Co. f_equal. lia. }
  assert (Hat : forall t i j, 0 <= i < w -> 0 <= j < h -> same_len m t ->
     (forall q, (forall j i, 0 <= j < h -> 0 <= i < w -> q <> cell j i) -> get t q = get m q) ->
     rotate_at t inp xi yi MX MY (posX ca sa X0 i j) (posY ca sa Y0 i j) = Ok (val j i) /\
     sampled tiny m inp xi yi w h (px_ i j) (py_ i j) (val j i)).
  { intros t i j Hi Hj L F. destruct (EX i j Hi Hj) as (A1 & A2 & _). destruct (EY i j Hi Hj) as (A3 & A4 & _).
    destruct (rotate_at_value m t inp xi yi w h (posX ca sa X0 i j) (posY ca sa Y0 i j) (px_ i j) (py_ i j))
      as (r & E1 & E2 & Sr); auto.
    { intros i' j' Hi' Hj'. unfold pixel. apply F. intros j'' i'' Hj'' Hi'' He. rewrite <- Hpx in He.
      apply (D i' j' 0 i'' j'' 0); auto; unfold inside; rewrite ?C1, ?Co; lia. }
    fold MX MY in E1, E2. unfold val. rewrite E2. split; [exact E1|exact Sr]. }
  split.
  2:{ intros i j Hi Hj. destruct (EX i j Hi Hj) as (_ & _ & A). destruct (EY i j Hi Hj) as (_ & _ & A').
      split; [exact A|]. split; [exact A'|]. apply (Hat m i j Hi Hj (same_len_refl m)). auto. }
  rewrite walk_rows by (try reflexivity; lia).
  match goal with |- writes (bind ?l _) _ _ _ _ _ _ _ => assert (E2 : exists t, l = Ok t /\ upto m cell w val h (fst (fst t))) end.
  { destruct (@iterM_inv mem (mem * double * double) (fun j t => upto m cell w val j (fst (fst t)) /\
       snd (fst t) = times j (fun x => dadd x sa) X0 /\ snd t = times j (fun x => dadd x ca) Y0)
      (fun j => (fun (cs : list ptr) (s0 : mem * double * double) =>
        let '(m0, inXPos, inYPos) := s0 in
        do t <- walk w cs [1] (padd (c0 cs) w)
                  (fun cs t => let '(m, posX, posY) := t in
                     do v <- rotate_at m inp xi yi MX MY posX posY;
                     do m <- store m (c0 cs) v;
                     Ok (m, dadd posX ca, dsub posY sa)) (m0, inXPos, inYPos);
        Ok (fst (fst t), dadd inXPos sa, dadd inYPos ca)) (at_ [O] [irs out] j))
      (Z.to_nat h) 0 (m, X0, Y0)) as (t & Et & Ut & _).
    - split; [apply (upto_0 m cell h w Hin Hone val)|]. split; reflexivity.
    - intros j ((t & x) & y) Hj (U & Ex & Ey). cbn [fst snd] in U, Ex, Ey. rewrite Z2Nat.id in Hj by lia.
      unfold at_ at 1, c0 at 1. cbn [combine map nth fst snd].
      destruct U as (L & V & F) eqn:EU. clear EU.
      rewrite (walk_iterM w) by (try reflexivity; try lia; rewrite Z.mul_1_r; reflexivity).
      assert (EI : exists t', iterM (Z.to_nat w) 0 (fun i => (fun (cs : list ptr) (t0 : mem * double * double) =>
          let '(m1, posX, posY) := t0 in
          do v <- rotate_at m1 inp xi yi MX MY posX posY;
          do m2 <- store m1 (c0 cs) v; Ok (m2, dadd posX ca, dsub posY sa)) (at_ [padd O (j * irs out)] [1] i)) (t, x, y) = Ok t' /\
          seg cell (@Ok mem mem (fst (fst t'))) t j 0 w (val j)).
      { destruct (@iterM_inv mem (mem * double * double) (fun i t' => seg cell (@Ok mem mem (fst (fst t'))) t j 0 i (val j) /\
           snd (fst t') = posX ca sa X0 i j /\ snd t' = posY ca sa Y0 i j)
          (fun i => (fun (cs : list ptr) (t0 : mem * double * double) =>
          let '(m1, posX, posY) := t0 in
          do v <- rotate_at m1 inp xi yi MX MY posX posY;
          do m2 <- store m1 (c0 cs) v; Ok (m2, dadd posX ca, dsub posY sa)) (at_ [padd O (j * irs out)] [1] i))
          (Z.to_nat w) 0 (t, x, y)) as (t' & Et' & St' & _).
        - split; [apply seg_empty with (h := h) (w := w) (m := m); assumption|]. cbn [fst snd].
          split; [exact Ex|exact Ey].
        - intros i ((t1 & x1) & y1) Hi (S1 & Ex1 & Ey1). cbn [fst snd] in S1, Ex1, Ey1. rewrite Z2Nat.id in Hi by lia.
          rewrite Z.add_0_l in Hi. destruct S1 as (t1' & Eq & L1 & V1 & F1). injection Eq as <-.
          assert (L1' : same_len m t1) by (eapply same_len_trans; eauto).
          rewrite Ex1, Ey1.
          destruct (Hat t1 i j) as (Ev & _); try lia; [exact L1'| |].
          { intros q Hq. rewrite F1 by (intros i' Hi'; apply Hq; lia). apply F. intros j' i' Hj' Hi'. apply Hq; lia. }
          rewrite Ev. cbn [bind].
          assert (Ec : c0 (at_ [padd O (j * irs out)] [1] i) = cell j i).
          { unfold at_, c0, cell. cbn [combine map nth fst snd]. rewrite padd_padd. f_equal. lia. }
          rewrite Ec, store_ok by (rewrite (same_len_inb m t1); [apply Hin; lia|exact L1']). cbn [bind].
          eexists. split; [reflexivity|]. cbn [fst snd]. split.
          + eexists. split; [reflexivity|]. split; [intros z; rewrite len_upd; apply L1|]. split.
            * intros i' Hi'. destruct (Z.eq_dec i' i) as [->|Hne]; [apply get_upd_same|].
              rewrite get_upd_other; [apply V1; lia|]. intros He. apply Hone in He; lia.
            * intros q Hq. rewrite get_upd_other by (apply Hq; lia). apply F1. intros i' Hi'. apply Hq. lia.
          + unfold posX, posY. rewrite !(times_succ i) by lia. split; reflexivity.
        - rewrite Z2Nat.id, Z.add_0_l in St' by lia. exists t'. split; [exact Et'|exact St']. }
      destruct EI as (t' & Et' & St').
      rewrite Et'. cbn [bind]. eexists. split; [reflexivity|]. cbn [fst snd].
      split; [|rewrite !times_succ by lia; rewrite Ex, Ey; split; reflexivity].
      destruct (upto_step m cell h w Hin Hone val j t (@Ok mem mem (fst (fst t'))) ltac:(lia)) as (t'' & Eq & U'').
      + split; [exact L|]. split; [exact V|exact F].
      + exact St'.
      + injection Eq as ->. exact U''.
    - rewrite Z2Nat.id, Z.add_0_l in Ut by lia. exists t. split; [exact Et|exact Ut]. }
  destruct E2 as (t & Et & (L3 & V3 & F3)). rewrite Et. cbn [bind].
  exists (fst (fst t)). split; [reflexivity|]. split.
  - intros i j k (Hi & Hj & Hk). rewrite Co in Hk. assert (k = 0) by lia. subst k.
    unfold pixel. rewrite Hpx. apply V3; lia.
  - split; [exact L3|]. intros p Hp. apply F3. intros j i Hj Hi. rewrite <- Hpx. apply Hp.
    unfold inside. rewrite Co. lia.
Qed.

(** ** No rotation *)

Lemma rnd_IZR k : Z.abs k <= 2 ^ 53 -> rnd (IZR k) = IZR k.
Proof. intros H. apply rnd_format, format_IZR. exact H. Qed.

Lemma small_IZR k : Z.abs k <= 2 ^ 53 -> (Rabs (IZR k) < bpow radix2 1024)%R.
Proof.
  intros H. apply (bound_big _ 53); [lia|]. rewrite <- abs_IZR.
  replace (bpow radix2 53) with (IZR (2 ^ 53)) by (simpl; reflexivity). apply IZR_le. exact H.
Qed.

Lemma times_exact f d n : (forall x k, isR x (IZR k) -> Z.abs k <= 2 ^ 40 -> isR (f x) (IZR (k + d))) ->
  Z.abs d <= 1 -> forall x k, isR x (IZR k) -> Z.abs k + n <= 2 ^ 40 -> 0 <= n -> isR (times n f x) (IZR (k + n * d)).
Proof.
  intros Hf Hd x k Hx Hb Hn. revert Hb. pattern n. revert n Hn. apply natlike_ind.
  - intros _. replace (k + 0 * d) with k by lia. exact Hx.
  - intros n Hn IH Hb. unfold Z.succ in *. rewrite times_succ by exact Hn.
    replace (k + (n + 1) * d) with (k + n * d + d) by lia. apply Hf; [apply IH; lia|]. nia.
Qed.

Lemma add_exact x y k l : isR x (IZR k) -> isR y (IZR l) -> Z.abs (k + l) <= 2 ^ 53 -> isR (dadd x y) (IZR (k + l)).
Proof.
  intros Hx Hy Hb. rewrite <- (rnd_IZR (k + l)) by exact Hb. rewrite plus_IZR. apply isR_add; auto.
  rewrite <- plus_IZR, rnd_IZR by exact Hb. apply small_IZR. exact Hb.
Qed.

Lemma sub_exact x y k l : isR x (IZR k) -> isR y (IZR l) -> Z.abs (k - l) <= 2 ^ 53 -> isR (dsub x y) (IZR (k - l)).
Proof.
  intros Hx Hy Hb. rewrite <- (rnd_IZR (k - l)) by exact Hb. rewrite minus_IZR. apply isR_sub; auto.
  rewrite <- minus_IZR, rnd_IZR by exact Hb. apply small_IZR. exact Hb.
Qed.

Lemma isR_fmt x r : isR x r -> rnd r = r /\ (Rabs r < bpow radix2 1024)%R.
Proof.
  intros (b & _ & F & <-). split; [apply rnd_format, generic_format_B2R|apply abs_B2R_lt_emax].
Qed.

Lemma times1 one x r : isR one 1 -> isR x r -> isR (dmul one x) r.
Proof.
  intros H1 Hx. destruct (isR_fmt _ _ Hx) as (E & B). rewrite <- E. rewrite <- (Rmult_1_l r) at 1.
  apply isR_mul; auto. rewrite Rmult_1_l, E. exact B.
Qed.
Lemma times0 z x r : isR z 0 -> isR x r -> isR (dmul z x) 0.
Proof.
  intros H1 Hx. assert (E : rnd (0 * r) = 0%R).
  { rewrite Rmult_0_l. apply rnd_format, generic_format_0. }
  rewrite <- E. apply isR_mul; auto. rewrite E, Rabs_R0. apply bpow_gt_0.
Qed.
Lemma plus0 x z r : isR x r -> isR z 0 -> isR (dadd x z) r.
Proof.
  intros Hx Hz. destruct (isR_fmt _ _ Hx) as (E & B). rewrite <- E. rewrite <- (Rplus_0_r r) at 1.
  apply isR_add; auto. rewrite Rplus_0_r, E. exact B.
Qed.
Lemma zplus x z r : isR x r -> isR z 0 -> isR (dadd z x) r.
Proof.
  intros Hx Hz. destruct (isR_fmt _ _ Hx) as (E & B). rewrite <- E. rewrite <- (Rplus_0_l r) at 1.
  apply isR_add; auto. rewrite Rplus_0_l, E. exact B.
Qed.

Lemma start_exact x y k u v : isR x u -> isR y v -> Z.abs k <= 2 ^ 53 -> v = (u + IZR k)%R ->
  isR (dadd (dopp x) y) (IZR k).
Proof.
  intros Hx Hy Hk ->. rewrite <- (rnd_IZR k) by exact Hk.
  replace (IZR k) with (- u + (u + IZR k))%R at 1 by ring. apply isR_add; auto using isR_opp.
  replace (- u + (u + IZR k))%R with (IZR k) by ring. rewrite rnd_IZR by exact Hk. apply small_IZR. exact Hk.
Qed.

Lemma straight ca sa cxi cyi cxo cyo axo ayo xi yi i j :
  isR ca 1 -> isR sa 0 -> isR cxo axo -> isR cyo ayo -> isR cxi (axo + IZR xi) -> isR cyi (ayo + IZR yi) ->
  0 <= xi < 2 ^ 32 -> 0 <= yi < 2 ^ 32 -> 0 <= i < 2 ^ 32 -> 0 <= j < 2 ^ 32 ->
  dreal (posX ca sa (startX ca sa cxo cyo cxi) i j) = IZR (xi + i) /\
  dreal (posY ca sa (startY ca sa cxo cyo cyi) i j) = IZR (yi + j).
Proof.
  intros Hc Hs H1 H2 H3 H4 Bx By Hi Hj.
  assert (X0 : isR (startX ca sa cxo cyo cxi) (IZR xi)).
  { unfold startX. apply (start_exact _ _ xi axo (axo + IZR xi)); auto; [|lia].
    apply plus0; [apply times1|apply (times0 _ _ ayo)]; auto. }
  assert (Hs' : isR (dopp sa) 0) by (rewrite <- Ropp_0; apply isR_opp; exact Hs).
  assert (Y0 : isR (startY ca sa cxo cyo cyi) (IZR yi)).
  { unfold startY. apply (start_exact _ _ yi ayo (ayo + IZR yi)); auto; [|lia].
    apply zplus; [apply times1|apply (times0 _ _ axo)]; auto. }
  assert (A1 : forall x k, isR x (IZR k) -> Z.abs k <= 2 ^ 40 -> isR (dadd x ca) (IZR (k + 1))).
  { intros x k Hx Hk. apply add_exact; auto. lia. }
  assert (A0 : forall x k, isR x (IZR k) -> Z.abs k <= 2 ^ 40 -> isR (dadd x sa) (IZR (k + 0))).
  { intros x k Hx Hk. apply add_exact; auto. lia. }
  assert (S0 : forall x k, isR x (IZR k) -> Z.abs k <= 2 ^ 40 -> isR (dsub x sa) (IZR (k + 0))).
  { intros x k Hx Hk. replace (k + 0) with (k - 0) by lia. apply sub_exact; auto. lia. }
  unfold posX, posY. split.
  - pose proof (times_exact _ 0 j A0 ltac:(lia) _ _ X0 ltac:(lia) ltac:(lia)) as T1.
    pose proof (times_exact _ 1 i A1 ltac:(lia) _ _ T1 ltac:(lia) ltac:(lia)) as T2.
    rewrite (dreal_isR _ _ T2). f_equal. lia.
  - pose proof (times_exact _ 1 j A1 ltac:(lia) _ _ Y0 ltac:(lia) ltac:(lia)) as T1.
    pose proof (times_exact _ 0 i S0 ltac:(lia) _ _ T1 ltac:(lia) ltac:(lia)) as T2.
    rewrite (dreal_isR _ _ T2). f_equal. lia.
Qed.
