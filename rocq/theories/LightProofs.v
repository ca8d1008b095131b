(** Proofs about LightCorrection. *)
From Coq Require Import ZArith List Bool Reals Lia Lra.
From Flocq Require Import Core.
From Verif Require Import Base Image Spec BaseProofs ImgFun ImgLemmas Double DoubleProofs Edge NumProofs
  ReduceProofs Arith HaarProofs Light.
Import ListNotations.
Open Scope Z_scope.

Ltac Zify.zify_post_hook ::= Z.div_mod_to_equations.

(** ** The factor *)

Lemma le_quot a b c : (0 < c)%R -> (a * c <= b)%R -> (a <= b / c)%R.
Proof.
  intros Hc H. apply Rmult_le_reg_r with c; [exact Hc|]. unfold Rdiv.
  rewrite Rmult_assoc, Rinv_l, Rmult_1_r by lra. exact H.
Qed.
Lemma quot_le a b c : (0 < c)%R -> (b <= a * c)%R -> (b / c <= a)%R.
Proof.
  intros Hc H. apply Rmult_le_reg_r with c; [exact Hc|]. unfold Rdiv.
  rewrite Rmult_assoc, Rinv_l, Rmult_1_r by lra. exact H.
Qed.

Lemma floor_quot v mx : 1 <= mx <= 254 -> 0 <= v <= mx ->
  Ztrunc (rnd (IZR (v * 4194304) / IZR mx)) = v * 4194304 / mx.
Proof.
  intros Hm Hv. set (n := v * 4194304 / mx).
  assert (Hn : n * mx <= v * 4194304 <= n * mx + (mx - 1)) by (unfold n; lia).
  assert (Hn2 : 0 <= n <= 4194304).
  { unfold n. split; [apply Z.div_pos; lia|]. apply Z.div_le_upper_bound; lia. }
  assert (Hmp : (0 < IZR mx)%R) by (apply IZR_lt; lia).
  assert (L : (IZR n <= IZR (v * 4194304) / IZR mx)%R).
  { apply le_quot; [exact Hmp|]. rewrite <- mult_IZR. apply IZR_le. lia. }
  set (up := F2R (Float radix2 ((n + 1) * 256 - 1) (-8))).
  assert (U : (IZR (v * 4194304) / IZR mx <= up)%R).
  { unfold up, F2R. cbn [Fnum Fexp]. apply quot_le; [exact Hmp|].
    replace (bpow radix2 (-8)) with (/ 256)%R by (simpl; lra).
    apply Rmult_le_reg_r with 256%R; [lra|].
    replace (IZR ((n + 1) * 256 - 1) * / 256 * IZR mx * 256)%R with (IZR (((n + 1) * 256 - 1) * mx)).
    - rewrite <- mult_IZR. apply IZR_le. nia.
    - rewrite mult_IZR. field. }
  assert (Up : (up < IZR (n + 1))%R).
  { unfold up, F2R. cbn [Fnum Fexp].
    replace (bpow radix2 (-8)) with (/ 256)%R by (simpl; lra).
    rewrite minus_IZR, mult_IZR. lra. }
  assert (A : (IZR n <= rnd (IZR (v * 4194304) / IZR mx))%R).
  { rewrite <- (rnd_format (IZR n)) by (apply format_IZR; lia). apply rnd_le. exact L. }
  assert (B : (rnd (IZR (v * 4194304) / IZR mx) < IZR (n + 1))%R).
  { eapply Rle_lt_trans; [|exact Up]. rewrite <- (rnd_format up); [apply rnd_le; exact U|].
    apply (formatT_F2R 53 1024); lia. }
  rewrite Ztrunc_floor.
  - apply Zfloor_imp. split; assumption.
  - eapply Rle_trans; [|exact A]. apply IZR_le. lia.
Qed.

Definition factor (mn mx v : Z) : Z :=
  if (mx <? v) || (v <? mn) then 4194304 else v * 4194304 / mx + 1.

Lemma light_factor_value {E} mn mx v : 1 <= mx <= 254 -> 0 <= v <= 255 ->
  @light_factor E mn mx v = Ok (factor mn mx v).
Proof.
  intros Hm Hv. unfold light_factor, factor.
  destruct (Z.ltb_spec mx v) as [H1|H1]; [reflexivity|]. cbn [orb].
  destruct (Z.ltb_spec v mn) as [H2|H2]; [reflexivity|].
  assert (A : isR (dofZ v) (IZR v)) by (apply isR_ofZ; lia).
  assert (B : isR (dofZ 4194304) (IZR 4194304)) by (apply isR_ofZ; lia).
  assert (C : isR (dofZ mx) (IZR mx)) by (apply isR_ofZ; lia).
  assert (Ef : rnd (IZR v * IZR 4194304) = IZR (v * 4194304)).
  { rewrite <- mult_IZR. apply rnd_format, format_IZR. lia. }
  assert (D : isR (dmul (dofZ v) (dofZ 4194304)) (IZR (v * 4194304))).
  { rewrite <- Ef. apply isR_mul; auto. rewrite Ef. apply big_lt.
    assert (2 ^ 53 <= 2 ^ 1023) by (apply Z.pow_le_mono_r; lia). lia. }
  destruct (divZ_bound (v * 4194304) mx 23) as (_ & _ & Db); try lia.
  assert (F : isR (ddiv (dmul (dofZ v) (dofZ 4194304)) (dofZ mx)) (rnd (IZR (v * 4194304) / IZR mx))).
  { apply isR_div; auto. - apply not_0_IZR. lia. - eapply bound_big; [|exact Db]. lia. }
  unfold cast_to. rewrite (isR_trunc _ _ F), floor_quot by lia.
  assert (Hq : 0 <= v * 4194304 / mx <= 4194304).
  { split; [apply Z.div_pos; lia|]. apply Z.div_le_upper_bound; lia. }
  unfold W32 at 1.
  destruct (Z.leb_spec 0 (v * 4194304 / mx)); [|lia].
  destruct (Z.ltb_spec (v * 4194304 / mx) 4294967296); [|lia]. cbn [andb bind].
  rewrite u32_small by (unfold W32; lia). reflexivity.
Qed.

(** ** The corrected value *)

Definition scale (p d : Z) : Z := Z.min 255 ((p * 4194304 + d / 2) / d).

Lemma light_px_value {E} p d : 0 <= p <= 255 -> 1 <= d <= 4194305 -> @light_px E p d = Ok (scale p d).
Proof.
  intros Hp Hd. unfold light_px, scale. destruct (Z.eqb_spec d 0); [lia|].
  rewrite Z.shiftl_mul_pow2, Z.shiftr_div_pow2 by lia.
  change (2 ^ 22) with 4194304. change (2 ^ 1) with 2.
  rewrite u32_small by (unfold W32; lia). f_equal.
  generalize ((p * 4194304 + d / 2) / d). intros q. destruct (Z.ltb_spec 255 q); lia.
Qed.

Lemma factor_range mn mx v : 1 <= mx <= 254 -> 0 <= v <= 255 -> 1 <= factor mn mx v <= 4194305.
Proof.
  intros Hm Hv. unfold factor. destruct (Z.ltb_spec mx v); cbn [orb]; [lia|].
  destruct (Z.ltb_spec v mn); [lia|].
  assert (0 <= v * 4194304 / mx <= 4194304).
  { split; [apply Z.div_pos; lia|]. apply Z.div_le_upper_bound; lia. }
  lia.
Qed.

Lemma scale_id p : 0 <= p <= 255 -> scale p 4194304 = p.
Proof. intros H. unfold scale. lia. Qed.

Lemma div_between a b q : 0 < b -> q * b <= a < (q + 1) * b -> a / b = q.
Proof. intros Hb H. symmetry. apply (Z.div_unique a b q (a - b * q)); nia. Qed.

Lemma quot_parts v M : 1 <= v <= M -> M <= 254 ->
  let d := v * 4194304 / M + 1 in
  v * 4194304 < d * M /\ d * M <= v * 4194304 + M /\ 16512 <= d <= 4194305.
Proof.
  intros Hv HM d. unfold d. split; [|split].
  - pose proof (Z.mul_succ_div_gt (v * 4194304) M ltac:(lia)). lia.
  - pose proof (Z.mul_div_le (v * 4194304) M ltac:(lia)). lia.
  - assert (16511 <= v * 4194304 / M) by (apply Z.div_le_lower_bound; lia).
    assert (v * 4194304 / M <= 4194304) by (apply Z.div_le_upper_bound; lia). lia.
Qed.

Lemma scale_self v M : 1 <= v <= M -> M <= 254 -> scale v (v * 4194304 / M + 1) = M.
Proof.
  intros Hv HM. pose proof (quot_parts v M Hv HM) as Q. cbv zeta in Q.
  set (d := v * 4194304 / M + 1) in *. unfold scale.
  rewrite (div_between _ d M); [lia|lia|]. lia.
Qed.

(** [r] is [p] M / [v] to within 0.52, clipped at 255. *)
Lemma scale_near p v M : 0 <= p <= 255 -> 1 <= v <= M -> M <= 254 ->
  let r := scale p (v * 4194304 / M + 1) in
  0 <= r <= 255 /\ 50 * Z.abs (r * v - Z.min (p * M) (255 * v)) <= 26 * v.
Proof.
  intros Hp Hv HM. pose proof (quot_parts v M Hv HM) as Q. cbv zeta in Q |- *.
  set (d := v * 4194304 / M + 1) in *. clearbody d. unfold scale.
  set (q := (p * 4194304 + d / 2) / d).
  assert (Q1 : q * d <= p * 4194304 + d / 2).
  { unfold q. rewrite Z.mul_comm. apply Z.mul_div_le. lia. }
  assert (Q2 : p * 4194304 + d / 2 < q * d + d).
  { unfold q. pose proof (Z.mul_succ_div_gt (p * 4194304 + d / 2) d ltac:(lia)). lia. }
  assert (Q0 : 0 <= q) by (apply Z.div_pos; lia). clearbody q.
  assert (E1 : 2 * (q * d) <= p * 8388608 + d) by lia.
  assert (E2 : p * 8388608 < 2 * (q * d) + d + 1) by lia. clear Q1 Q2.
  assert (F1 : 2 * (q * d) * M <= p * M * 8388608 + d * M).
  { pose proof (Z.mul_le_mono_nonneg_r _ _ M ltac:(lia) E1). lia. }
  assert (F2 : p * M * 8388608 <= 2 * (q * d) * M + d * M).
  { assert (E2' : p * 8388608 <= 2 * (q * d) + d) by lia.
    pose proof (Z.mul_le_mono_nonneg_r _ _ M ltac:(lia) E2'). lia. }
  destruct Q as (G1 & G2 & G3).
  assert (H1 : q * (v * 4194304) <= q * (d * M)) by (apply Z.mul_le_mono_nonneg_l; lia).
  assert (H2 : q * (d * M) <= q * (v * 4194304 + M)) by (apply Z.mul_le_mono_nonneg_l; lia).
  replace (2 * (q * d) * M) with (2 * (q * (d * M))) in F1, F2 by ring.
  set (X := q * (d * M)) in *. clearbody X. set (D := d * M) in *. clearbody D.
  replace (q * (v * 4194304)) with (q * v * 4194304) in H1 by ring.
  replace (q * (v * 4194304 + M)) with (q * v * 4194304 + q * M) in H2 by ring.
  destruct (Z.le_gt_cases q 255) as [Hq|Hq].
  - rewrite Z.min_r by lia.
    assert (q * M <= 255 * 254) by nia.
    assert (Hqv : q * v <= 255 * v) by nia.
    set (T := q * v) in *. clearbody T. set (S := q * M) in *. clearbody S.
    assert (0 <= p * M) by nia. set (Y := p * M) in *. clearbody Y. lia.
  - rewrite Z.min_l by lia. assert (256 * v <= q * v) by nia.
    assert (q * M * 1 <= q * M) by lia.
    assert (Hc : 255 * v <= p * M); [|rewrite Z.min_r by lia; lia].
    nia.
Qed.

(** ** Samples *)

(** Sample [i] of row [j] of the image. *)
Definition smp (m : mem) (im : image) (i j : Z) : Z :=
  get m (padd (dataptr im) (j * irs im + i)).
Definition smps (m : mem) (im : image) : Prop :=
  forall i j, 0 <= i < iw im -> 0 <= j < ih im -> 0 <= smp m im i j < 256.

Lemma dataptr_base m im : wf m im -> dataptr im = ibase im.
Proof. intros W. pose proof (wf_data _ _ W). unfold dataptr, ibase. destruct (idata im); [reflexivity|congruence]. Qed.

Lemma width_le m im : wf m im -> iw im <= irs im.
Proof. intros W. pose proof (wf_rs _ _ W). pose proof (wf_cc_pos _ _ W). pose proof (wf_w _ _ W). nia. Qed.

Lemma smp_inb m im i j : wf m im -> 0 <= i < iw im -> 0 <= j < ih im ->
  inb m (padd (dataptr im) (j * irs im + i)) = true.
Proof.
  intros W Hi Hj. rewrite (dataptr_base m im W). apply inb_iff. unfold padd. cbn [fst snd].
  pose proof (width_le m im W). pose proof (wf_lo _ _ W). pose proof (wf_hi _ _ W).
  assert (j * irs im + irs im <= ih im * irs im) by nia. nia.
Qed.

Lemma smp_pixel m im i j : wf m im -> icc im = 1 -> smp m im i j = pixel m im i j 0.
Proof.
  intros W C. unfold smp, pixel, px, padd. rewrite (dataptr_base m im W), C. f_equal. f_equal. lia.
Qed.

Lemma smps_bytes m im : wf m im -> icc im = 1 -> bytes m im -> smps m im.
Proof. intros W C B i j Hi Hj. rewrite smp_pixel by assumption. apply B; lia. Qed.

(** The position ([p],[q]) comes before ([i],[j]) in raster order. *)
Definition before (w i j p q : Z) : Prop := 0 <= p < w /\ (0 <= q < j \/ q = j /\ p < i).

Lemma full_walk {E T} m im (body : list ptr -> T -> res E T) t : wf m im ->
  walk (ih im) [dataptr im] [irs im] (padd (dataptr im) (u32 (ih im * irs im)))
    (fun cs s => walk (iw im) cs [1] (padd (c0 cs) (iw im)) body s) t
  = iterM (Z.to_nat (ih im)) 0 (fun j => iterM (Z.to_nat (iw im)) 0 (fun i =>
      body [padd (dataptr im) (j * irs im + i)])) t.
Proof.
  intros W. pose proof (wf_size _ _ W). pose proof (wf_rs_pos _ _ W). pose proof (wf_w _ _ W).
  pose proof (wf_h _ _ W).
  etransitivity; [apply (walk2_plain (iw im) (ih im) (iw im) (dataptr im) [] (irs im) [] 1 []);
                  try reflexivity; try lia|].
  apply iterM_ext. intros j s Hj. apply iterM_ext. intros i u Hi.
  unfold cells. cbn [zip3 map fst snd]. rewrite Z.mul_1_r. reflexivity.
Qed.

Lemma light_scan_value m im : wf m im -> smps m im ->
  exists mn mx, light_scan m im = Ok (mn, mx) /\
    (mn = 255 \/ 0 < mn < 255 /\ exists i j, 0 <= i < iw im /\ 0 <= j < ih im /\ smp m im i j = mn) /\
    (mx = 0 \/ 0 < mx < 255 /\ exists i j, 0 <= i < iw im /\ 0 <= j < ih im /\ smp m im i j = mx) /\
    (forall i j, 0 <= i < iw im -> 0 <= j < ih im ->
       (0 < smp m im i j -> mn <= smp m im i j) /\ (smp m im i j < 255 -> smp m im i j <= mx)).
Proof.
  intros W B. unfold light_scan. rewrite (full_walk m im) by assumption.
  pose proof (wf_w _ _ W). pose proof (wf_h _ _ W).
  destruct (@iterM2_inv light (Z * Z)
    (fun j i s =>
      (fst s = 255 \/ 0 < fst s < 255 /\ exists p q, 0 <= p < iw im /\ 0 <= q < ih im /\ smp m im p q = fst s) /\
      (snd s = 0 \/ 0 < snd s < 255 /\ exists p q, 0 <= p < iw im /\ 0 <= q < ih im /\ smp m im p q = snd s) /\
      (forall p q, before (iw im) i j p q ->
         (0 < smp m im p q -> fst s <= smp m im p q) /\ (smp m im p q < 255 -> smp m im p q <= snd s)))
    (fun j i s => bind (load m (padd (dataptr im) (j * irs im + i))) (fun v =>
       let '(mn, mx) := s in
       let mn := if (v <? mn) && (0 <? v) then v else mn in
       let mx := if (mx <? v) && (v <? 255) then v else mx in
       Ok (mn, mx))) (ih im) (iw im) (255, 0)) as ([mn mx] & He & P1 & P2 & P3); try lia.
  - cbn [fst snd]. split; [auto|]. split; [auto|]. intros p q (Hp & Hq). lia.
  - intros j i [mn mx] Hj Hi (P1 & P2 & P3). rewrite load_ok by (apply smp_inb; auto; lia).
    cbn [bind]. eexists. split; [reflexivity|]. cbn [fst snd] in *.
    fold (smp m im i j). pose proof (B i j Hi Hj) as Bv.
    split; [|split].
    + destruct ((smp m im i j <? mn) && (0 <? smp m im i j)) eqn:Eb; [|exact P1].
      apply andb_true_iff in Eb as [E1 E2]. apply Z.ltb_lt in E1, E2.
      right. split; [lia|]. exists i, j. auto.
    + destruct ((mx <? smp m im i j) && (smp m im i j <? 255)) eqn:Eb; [|exact P2].
      apply andb_true_iff in Eb as [E1 E2]. apply Z.ltb_lt in E1, E2.
      right. split; [lia|]. exists i, j. auto.
    + intros p q (Hp & Hq).
      assert (Hd : before (iw im) i j p q \/ p = i /\ q = j) by (unfold before; lia).
      set (v := smp m im i j) in *.
      destruct Hd as [Hd|[-> ->]].
      * destruct (P3 p q Hd) as (R1 & R2). split; intros Hs.
        -- specialize (R1 Hs). destruct (Z.ltb_spec v mn); cbn [andb]; [|lia].
           destruct (Z.ltb_spec 0 v); lia.
        -- specialize (R2 Hs). destruct (Z.ltb_spec mx v); cbn [andb]; [|lia].
           destruct (Z.ltb_spec v 255); lia.
      * fold v. split; intros Hs.
        -- destruct (Z.ltb_spec v mn); cbn [andb]; [|lia]. destruct (Z.ltb_spec 0 v); lia.
        -- destruct (Z.ltb_spec mx v); cbn [andb]; [|lia]. destruct (Z.ltb_spec v 255); lia.
  - intros j [mn mx] Hj (P1 & P2 & P3). split; [exact P1|]. split; [exact P2|].
    intros p q Hb. apply P3. unfold before in *. lia.
  - exists mn, mx. split; [exact He|]. split; [exact P1|]. split; [exact P2|].
    intros i j Hi Hj. apply P3. unfold before. lia.
Qed.

Lemma flat_inj w p q p' q' : 0 <= p < w -> 0 <= p' < w -> q * w + p = q' * w + p' -> p = p' /\ q = q'.
Proof. intros H1 H2 H. assert (q = q') by nia. subst. lia. Qed.

Lemma light_fill_value m im mn mx d : wf m im -> smps m im -> 1 <= mx <= 254 ->
  alen d = iw im * ih im ->
  exists k d', light_fill m im mn mx d = Ok (k, d') /\ alen d' = iw im * ih im /\
    forall p q, 0 <= p < iw im -> 0 <= q < ih im -> aget d' (q * iw im + p) = factor mn mx (smp m im p q).
Proof.
  intros W B Hm Hd. unfold light_fill. rewrite (full_walk m im) by assumption.
  pose proof (wf_w _ _ W). pose proof (wf_h _ _ W).
  destruct (@iterM2_inv light (Z * arr Z)
    (fun j i s => fst s = j * iw im + i /\ alen (snd s) = iw im * ih im /\
       forall p q, before (iw im) i j p q -> aget (snd s) (q * iw im + p) = factor mn mx (smp m im p q))
    (fun j i s => bind (load m (padd (dataptr im) (j * irs im + i))) (fun v =>
       bind (light_factor mn mx v) (fun f => bind (wr (snd s) (fst s) f) (fun d => Ok (fst s + 1, d)))))
    (ih im) (iw im) (0, d)) as ([k d'] & He & _ & P2 & P3); try lia.
  - cbn [fst snd]. split; [lia|]. split; [exact Hd|]. intros p q (Hp & Hq). lia.
  - intros j i [k d'] Hj Hi (P1 & P2 & P3). cbn [fst snd] in *.
    rewrite load_ok by (apply smp_inb; auto; lia). cbn [bind]. fold (smp m im i j).
    pose proof (B i j Hi Hj). rewrite light_factor_value by lia. cbn [bind].
    assert (Hk : 0 <= k < alen d') by nia.
    rewrite wr_ok by lia. cbn [bind]. eexists. split; [reflexivity|]. cbn [fst snd].
    split; [lia|]. split; [exact P2|]. intros p q Hb. cbn [aset aget].
    destruct (Z.eqb_spec (q * iw im + p) k) as [Ek|Ek].
    + subst k. destruct (flat_inj (iw im) p q i j) as [-> ->]; auto; try lia. apply Hb.
    + apply P3. destruct Hb as (Hp & Hq). split; [exact Hp|].
      destruct Hq as [Hq|[-> Hq]]; [left; exact Hq|]. right. split; [reflexivity|].
      destruct (Z.eq_dec p i); [subst; lia|lia].
  - intros j [k d'] Hj (P1 & P2 & P3). cbn [fst snd] in *. split; [lia|]. split; [exact P2|].
    intros p q Hb. apply P3. unfold before in *. lia.
  - exists k, d'. split; [exact He|]. split; [exact P2|].
    intros p q Hp Hq. apply P3. unfold before. lia.
Qed.

(** ** analyze *)

(** What a successful analysis leaves in the object. *)
Record knows (m : mem) (im : image) (mn mx : Z) (st : light) : Prop := mkKnows {
  kn_w : lw st = Some (iw im);
  kn_h : lh st = Some (ih im);
  kn_len : alen (ldata st) = iw im * ih im;
  kn_val : forall p q, 0 <= p < iw im -> 0 <= q < ih im ->
             aget (ldata st) (q * iw im + p) = factor mn mx (smp m im p q)
}.

(** [mn] < [mx] are the least and the largest sample in 1..254. *)
Definition extremes (m : mem) (im : image) (mn mx : Z) : Prop :=
  (0 < mn /\ mn < mx /\ mx < 255) /\
  (exists i j, 0 <= i < iw im /\ 0 <= j < ih im /\ smp m im i j = mn) /\
  (exists i j, 0 <= i < iw im /\ 0 <= j < ih im /\ smp m im i j = mx) /\
  (forall i j, 0 <= i < iw im -> 0 <= j < ih im -> 0 < smp m im i j < 255 -> mn <= smp m im i j <= mx).

Lemma area_small m im : wf m im -> 0 < iw im * ih im < W32.
Proof.
  intros W. pose proof (width_le m im W). pose proof (wf_size _ _ W). pose proof (wf_w _ _ W).
  pose proof (wf_h _ _ W). nia.
Qed.

Lemma analyze_value m im st : wf m im -> smps m im ->
  (exists mn mx st', extremes m im mn mx /\ analyze m im st = Ok st' /\ knows m im mn mx st') \/
  (forall i j i' j', 0 <= i < iw im -> 0 <= j < ih im -> 0 <= i' < iw im -> 0 <= j' < ih im ->
     0 < smp m im i j < 255 -> 0 < smp m im i' j' < 255 -> smp m im i j = smp m im i' j') /\
  analyze m im st = Throw (mkLight (vresize (ldata st) (iw im * ih im)) (Some (iw im)) (Some (ih im))).
Proof.
  intros W B. unfold analyze.
  assert (V : valid_image im = true).
  { unfold valid_image. rewrite (wf_not_empty m im W), (color_ok m im W). reflexivity. }
  rewrite V. pose proof (area_small m im W). rewrite (u32_small (iw im * ih im)) by lia.
  destruct (light_scan_value m im W B) as (mn & mx & -> & Hn & Hx & Hall). cbn [bind].
  destruct (Z.leb_spec mx mn) as [Hle|Hlt]; cbn [negb].
  - right. split; [|reflexivity]. intros i j i' j' Hi Hj Hi' Hj' Hs Hs'.
    pose proof (Hall i j Hi Hj). pose proof (Hall i' j' Hi' Hj'). lia.
  - left. destruct Hn as [->|(Hn1 & Hn2)]; [destruct Hx as [->|(Hx1 & _)]; lia|].
    destruct Hx as [->|(Hx1 & Hx2)]; [lia|].
    destruct (light_fill_value m im mn mx (vresize (ldata st) (iw im * ih im)) W B)
      as (k & d' & -> & Hl & Hv); [lia|reflexivity|].
    exists mn, mx. eexists. split; [|split; [reflexivity|]].
    + split; [lia|]. split; [exact Hn2|]. split; [exact Hx2|].
      intros i j Hi Hj Hs. pose proof (Hall i j Hi Hj). lia.
    + constructor; auto.
Qed.

(** ** correct *)

Lemma smp_addr_inj im m i j i' j' : wf m im -> 0 <= i < iw im -> 0 <= i' < iw im ->
  padd (dataptr im) (j * irs im + i) = padd (dataptr im) (j' * irs im + i') -> i = i' /\ j = j'.
Proof.
  intros W Hi Hi' H. apply padd_inj in H. pose proof (width_le m im W).
  apply (flat_inj (irs im)); lia.
Qed.

Lemma correct_roi_value m st im x y w h dw dh :
  wf m im -> roi_in im x y w h ->
  lw st = Some dw -> lh st = Some dh -> 0 < dw -> 0 < dh -> y * dw < W32 ->
  (forall i j, 0 <= i < w -> 0 <= j < h ->
     0 <= smp m im (x + i) (y + j) < 256 /\
     0 <= (y + j) * dw + (x + i) < alen (ldata st) /\
     1 <= aget (ldata st) ((y + j) * dw + (x + i)) <= 4194305) ->
  exists m', correct_roi m st im x y w h = Ok m' /\ same_len m m' /\
    (forall i j, 0 <= i < w -> 0 <= j < h ->
       smp m' im (x + i) (y + j)
       = scale (smp m im (x + i) (y + j)) (aget (ldata st) ((y + j) * dw + (x + i)))) /\
    (forall p, (forall i j, 0 <= i < w -> 0 <= j < h ->
                  p <> padd (dataptr im) ((y + j) * irs im + (x + i))) -> get m' p = get m p).
Proof.
  intros W R Hw Hh Pw Ph Hy Hall. unfold correct_roi.
  rewrite (valid_roi_ok m) by assumption. rewrite Hw, Hh. cbn [field bind].
  destruct (Z.eqb_spec dw 0); [lia|]. destruct (Z.eqb_spec dh 0); [lia|]. cbn [negb].
  pose proof (roi_rows_small m im x y w h W R) as Hrows. pose proof (wf_rs_pos _ _ W) as Hrs.
  pose proof (wf_size _ _ W) as Hsz. destruct R as [R1 R2 R3 R4 R5 R6].
  rewrite (u32_small (y * irs im)) by nia. rewrite (u32_small (y * dw)) by nia. rewrite padd_padd.
  set (imY := padd (dataptr im) (y * irs im + x)).
  rewrite (walk_iterM h) by (try reflexivity; try lia; f_equal; rewrite u32_small; lia).
  set (cell := fun i j => padd (dataptr im) ((y + j) * irs im + (x + i))).
  set (val := fun i j => scale (smp m im (x + i) (y + j)) (aget (ldata st) ((y + j) * dw + (x + i)))).
  set (Inv := fun i j (t : mem) => same_len m t /\
     (forall p q, before w i j p q -> q < h -> get t (cell p q) = val p q) /\
     (forall a, (forall p q, before w i j p q -> q < h -> a <> cell p q) -> get t a = get m a)).
  match goal with |- context [iterM _ 0 ?f _] => set (body := f) end.
  assert (Step : forall j s, 0 <= j < h -> fst s = (y + j) * dw + x -> Inv 0 j (snd s) ->
    exists s', body j s = Ok s' /\ fst s' = (y + (j + 1)) * dw + x /\ Inv 0 (j + 1) (snd s')).
  { intros j [k t] Hj Hk Ht. cbn [fst snd] in Hk, Ht. unfold body.
    unfold at_. cbn [combine map fst snd c0 nth]. unfold c0. cbn [nth].
    rewrite (walk_iterM w) by (try reflexivity; try lia; f_equal; lia).
    match goal with |- context [iterM _ 0 ?f _] => set (ib := f) end.
    destruct (@iterM_inv mem (Z * mem) (fun i s => fst s = (y + j) * dw + (x + i) /\ Inv i j (snd s))
                ib (Z.to_nat w) 0 (k, t)) as ([k' t'] & He & Hk' & Ht').
    - cbn [fst snd]. split; [lia|exact Ht].
    - intros i [k1 t1] Hi (Hk1 & Hl & Hv & Hf). cbn [fst snd] in *.
      assert (Hi' : 0 <= i < w) by lia. clear Hi.
      destruct (Hall i j Hi' Hj) as (B1 & B2 & B3).
      unfold ib. unfold at_. cbn [combine map fst snd nth].
      assert (Ea : padd (padd imY (j * irs im)) (i * 1) = cell i j).
      { unfold imY, cell. rewrite !padd_padd. f_equal. ring. }
      unfold c0. cbn [nth]. rewrite Ea.
      assert (Ib : inb t1 (cell i j) = true).
      { rewrite (same_len_inb m t1) by exact Hl. apply smp_inb; auto; lia. }
      rewrite load_ok by exact Ib. cbn [bind].
      assert (Eg : get t1 (cell i j) = smp m im (x + i) (y + j)).
      { rewrite Hf; [reflexivity|]. intros p q (Hp & Hq) Hqh Hc.
        apply (smp_addr_inj im m) in Hc as [Hc1 Hc2]; auto; lia. }
      rewrite Eg. rewrite rd_ok by lia. cbn [bind].
      rewrite Hk1. rewrite light_px_value by lia. cbn [bind].
      rewrite store_ok by exact Ib. cbn [bind].
      eexists. split; [reflexivity|]. cbn [fst snd]. split; [lia|].
      fold (val i j). split; [|split].
      + intros b. rewrite len_upd. apply Hl.
      + intros p q (Hp & Hq) Hqh. destruct (Z.eq_dec p i) as [Epi|Epi]; [destruct (Z.eq_dec q j) as [Eqj|Eqj]|].
        * subst p q. apply get_upd_same.
        * rewrite get_upd_other; [apply Hv; [split; [exact Hp|lia]|exact Hqh]|].
          intros Hc. apply (smp_addr_inj im m) in Hc as [Hc1 Hc2]; auto; lia.
        * rewrite get_upd_other; [apply Hv; [split; [exact Hp|lia]|exact Hqh]|].
          intros Hc. apply (smp_addr_inj im m) in Hc as [Hc1 Hc2]; auto; lia.
      + intros a Ha. rewrite get_upd_other; [apply Hf; intros p q (Hp & Hq) Hqh; apply Ha; [split; [exact Hp|lia]|exact Hqh]|].
        apply Ha; [split; lia|lia].
    - rewrite He. cbn [bind]. eexists. split; [reflexivity|]. cbn [fst snd]. split; [lia|].
      cbn [snd] in Ht'. replace (0 + Z.of_nat (Z.to_nat w)) with w in Ht' by lia.
      destruct Ht' as (Hl & Hv & Hf). split; [exact Hl|]. split.
      + intros p q (Hp & Hq) Hqh. apply Hv; [split; [exact Hp|lia]|exact Hqh].
      + intros a Ha. apply Hf. intros p q (Hp & Hq) Hqh. apply Ha; [split; [exact Hp|lia]|exact Hqh]. }
  destruct (@iterM_inv mem (Z * mem) (fun j s => fst s = (y + j) * dw + x /\ Inv 0 j (snd s))
              body (Z.to_nat h) 0 (x + y * dw, m)) as ([k' m'] & He & _ & Hl & Hv & Hf).
  - cbn [fst snd]. split; [lia|]. split; [apply same_len_refl|]. split.
    + intros p q (Hp & Hq) _. lia.
    + reflexivity.
  - intros j s Hj (Hk & Ht). destruct (Step j s) as (s' & E1 & E2 & E3); auto; [lia|].
    exists s'. auto.
  - rewrite He. cbn [bind]. exists m'. split; [reflexivity|]. cbn [snd] in *.
    replace (0 + Z.of_nat (Z.to_nat h)) with h in * by lia.
    split; [exact Hl|]. split.
    + intros i j Hi Hj. apply (Hv i j); [split; [exact Hi|lia]|lia].
    + intros p Hp. apply Hf. intros a b (Ha & Hb) Hbh. apply Hp; lia.
Qed.

(** ** findIncorrectPixels *)

Definition extreme (v : Z) : bool := (v =? 0) || (v =? 255).

(** Positions of row [j] in columns [0,n) and of rows [0,h). *)
Definition row_bad (m : mem) (im : image) (j : Z) (n : Z) : list (Z * Z) :=
  map (fun i => (i, j)) (filter (fun i => extreme (smp m im i j)) (map Z.of_nat (seq 0 (Z.to_nat n)))).
Definition all_bad (m : mem) (im : image) (n h : Z) : list (Z * Z) :=
  flat_map (fun j => row_bad m im j n) (map Z.of_nat (seq 0 (Z.to_nat h))).

Lemma zseq_S n : 0 <= n -> map Z.of_nat (seq 0 (Z.to_nat (n + 1))) = map Z.of_nat (seq 0 (Z.to_nat n)) ++ [n].
Proof.
  intros Hn. replace (Z.to_nat (n + 1)) with (S (Z.to_nat n)) by lia.
  rewrite seq_S, map_app. cbn [map Nat.add]. rewrite Z2Nat.id by lia. reflexivity.
Qed.

Lemma find_value m st im : wf m im -> lw st = Some (iw im) -> lh st = Some (ih im) ->
  findIncorrectPixels m st im = Ok (all_bad m im (iw im) (ih im)).
Proof.
  intros W Hw Hh. unfold findIncorrectPixels. rewrite Hw, Hh. cbn [field bind].
  pose proof (wf_rs_pos _ _ W) as Hrs. pose proof (wf_size _ _ W) as Hsz.
  pose proof (wf_w _ _ W) as Pw. pose proof (wf_h _ _ W) as Ph. pose proof (width_le m im W) as Hwl.
  assert (Sw : iw im < W32 /\ ih im < W32) by nia. destruct Sw as [Sw Sh].
  rewrite (walk_iterM (ih im)) by (try reflexivity; try lia; f_equal; rewrite u32_small; nia).
  match goal with |- context [iterM _ 0 ?f _] => set (body := f) end.
  destruct (@iterM_inv mem (Z * Z * list (Z * Z))
     (fun j s => s = (0, u32 j, all_bad m im (iw im) j)) body (Z.to_nat (ih im)) 0 (0, 0, []))
    as (s & He & ->).
  - reflexivity.
  - intros j s Hj ->. unfold body. cbn [fst snd]. unfold at_, c0. cbn [combine map fst snd nth].
    rewrite (walk_iterM (iw im)) by (try reflexivity; try lia; f_equal; lia).
    match goal with |- context [iterM _ 0 ?f _] => set (ib := f) end.
    destruct (@iterM_inv mem (Z * Z * list (Z * Z))
       (fun i s => s = (u32 i, u32 j, all_bad m im (iw im) j ++ row_bad m im j i)) ib (Z.to_nat (iw im)) 0
       (0, u32 j, all_bad m im (iw im) j)) as (s & He & ->).
    + change (row_bad m im j 0) with (@nil (Z * Z)). rewrite app_nil_r. reflexivity.
    + intros i s Hi ->. unfold ib. unfold at_. cbn [combine map fst snd nth].
      rewrite padd_padd.
      replace (j * irs im + i * 1) with (j * irs im + i) by ring.
      rewrite load_ok by (apply smp_inb; auto; lia). cbn [bind]. fold (smp m im i j).
      eexists. split; [reflexivity|].
      rewrite (u32_small i), (u32_small (i + 1)) by lia. rewrite (u32_small j) by lia.
      f_equal. fold (extreme (smp m im i j)). unfold row_bad.
      rewrite zseq_S by lia. rewrite filter_app, map_app. cbn [filter].
      destruct (extreme (smp m im i j)); cbn [map].
      * rewrite app_assoc. reflexivity.
      * rewrite app_nil_r. reflexivity.
    + rewrite He. cbn [bind fst snd]. eexists. split; [reflexivity|].
      replace (0 + Z.of_nat (Z.to_nat (iw im))) with (iw im) by lia.
      f_equal; [f_equal; unfold u32; rewrite Zplus_mod_idemp_l; reflexivity|].
      unfold all_bad. rewrite zseq_S by lia. rewrite flat_map_app. cbn [flat_map]. rewrite app_nil_r. reflexivity.
  - rewrite He. cbn [bind snd]. f_equal. f_equal. lia.
Qed.
