(** Proofs about Tone.v: Normalize. *)
From Coq Require Import ZArith List Bool Lia Reals Lra.
From Flocq Require Import Core.
From Verif Require Import Base Image Spec BaseProofs ImgFun ImgLemmas ImgProofs ReduceProofs Double DoubleProofs Tone.
Import ListNotations.
Open Scope Z_scope.
Ltac Zify.zify_post_hook ::= Z.div_mod_to_equations.

(** ** Minimum and maximum *)

Lemma min_max_ok m inp x y w h :
  area m inp x y w h -> roi_bytes m inp x y w h ->
  exists mn mx, min_max m inp x y w h = Ok (mn, mx) /\
    (forall i j c, inside w h (icc inp) i j c -> mn <= pixel m inp (x + i) (y + j) c <= mx) /\
    (exists i j c, inside w h (icc inp) i j c /\ pixel m inp (x + i) (y + j) c = mn) /\
    (exists i j c, inside w h (icc inp) i j c /\ pixel m inp (x + i) (y + j) c = mx).
Proof.
  intros (W & R) B. pose proof (wf_cc_pos _ _ W) as Hcc. pose proof (wf_rs_pos _ _ W) as Hrs.
  assert (Hw0 : 0 < w) by apply R. assert (Hh0 : 0 < h) by apply R.
  pose proof (roi_rows_small m inp x y w h W R) as Hsm.
  unfold min_max.
  rewrite (row_ptr_origin m inp x y w h) by (auto; lia).
  rewrite (u32_width m inp x w) by (auto; first [apply R|lia]).
  unfold c0. rewrite (walk2_plain (w * icc inp)); try reflexivity; try lia; try nia.
  set (f := fun j i => get m (padd (origin inp x y (icc inp)) (j * irs inp + i))).
  assert (Hf : forall i j c, f j (i * icc inp + c) = pixel m inp (x + i) (y + j) c).
  { intros i j c. unfold f, pixel. rewrite px_origin. reflexivity. }
  assert (Hf' : forall j i, 0 <= j < h -> 0 <= i < w * icc inp ->
     exists i0 c, inside w h (icc inp) i0 j c /\ f j i = pixel m inp (x + i0) (y + j) c).
  { intros j i Hj Hi. destruct (split_index (icc inp) i w) as (S1 & S2 & S3); try lia.
    exists (i / icc inp), (i mod icc inp). split; [unfold inside; lia|].
    rewrite <- Hf. f_equal. exact S3. }
  assert (Hfb : forall j i, 0 <= j < h -> 0 <= i < w * icc inp -> 0 <= f j i < 256).
  { intros j i Hj Hi. destruct (Hf' j i Hj Hi) as (i0 & c & Hin & ->). apply B. exact Hin. }
  set (seen := fun j i j' i' : Z => 0 <= i' < w * icc inp /\ 0 <= j' < h /\ (j' < j \/ j' = j /\ i' < i)).
  destruct (@iterM2_inv mem (Z * Z)
     (fun j i s => (forall j' i', seen j i j' i' -> fst s <= f j' i' <= snd s) /\
        (fst s = 255 \/ exists j' i', seen j i j' i' /\ f j' i' = fst s) /\
        (snd s = 0 \/ exists j' i', seen j i j' i' /\ f j' i' = snd s))
     (fun j i s => do v <- load m (nth 0 (cells (zip3 [origin inp x y (icc inp)] [irs inp] [1]) j i) nullp);
        Ok (if v <? fst s then v else fst s, if snd s <? v then v else snd s))
     h (w * icc inp) (255, 0)) as (s & He & Hall & Hmn & Hmx); try lia; try nia.
  - cbn [fst snd]. split; [|auto]. intros j' i' (H1 & H2 & H3). lia.
  - intros j i s Hj Hi (Hall & Hmn & Hmx).
    replace (nth 0 (cells (zip3 [origin inp x y (icc inp)] [irs inp] [1]) j i) nullp)
      with (padd (origin inp x y (icc inp)) (j * irs inp + i))
      by (cbn; rewrite Z.mul_1_r; reflexivity).
    rewrite load_ok by (apply (cell_inb m inp x y w h); auto). cbn [bind]. fold (f j i).
    eexists. split; [reflexivity|]. cbn [fst snd].
    assert (Hme : seen j (i + 1) j i) by (unfold seen; lia).
    assert (Hinc : forall j' i', seen j i j' i' -> seen j (i + 1) j' i') by (unfold seen; intros; lia).
    split; [|split].
    + intros j' i' Hs.
      assert (j' = j /\ i' = i \/ seen j i j' i') as [(-> & ->)|Hs'] by (unfold seen in *; lia).
      * destruct (Z.ltb_spec (f j i) (fst s)), (Z.ltb_spec (snd s) (f j i)); lia.
      * specialize (Hall j' i' Hs').
        destruct (Z.ltb_spec (f j i) (fst s)), (Z.ltb_spec (snd s) (f j i)); lia.
    + destruct (Z.ltb_spec (f j i) (fst s)).
      * right. exists j, i. auto.
      * destruct Hmn as [Hmn|(j' & i' & Hs & Hv)]; [left; exact Hmn|right; exists j', i'; auto].
    + destruct (Z.ltb_spec (snd s) (f j i)).
      * right. exists j, i. auto.
      * destruct Hmx as [Hmx|(j' & i' & Hs & Hv)]; [left; exact Hmx|right; exists j', i'; auto].
  - intros j s Hj (Hall & Hmn & Hmx).
    assert (Hinc : forall j' i', seen j (w * icc inp) j' i' <-> seen (j + 1) 0 j' i') by (unfold seen; intros; lia).
    split; [|split].
    + intros j' i' Hs. apply Hall. apply Hinc. exact Hs.
    + destruct Hmn as [Hmn|(j' & i' & Hs & Hv)]; [left; exact Hmn|right; exists j', i'; split; [apply Hinc|]; auto].
    + destruct Hmx as [Hmx|(j' & i' & Hs & Hv)]; [left; exact Hmx|right; exists j', i'; split; [apply Hinc|]; auto].
  - exists (fst s), (snd s). split; [rewrite He; destruct s; reflexivity|].
    assert (Hany : forall j i, 0 <= j < h -> 0 <= i < w * icc inp -> seen h 0 j i) by (unfold seen; intros; lia).
    pose proof (Hall 0 0 (Hany 0 0 ltac:(lia) ltac:(nia))) as H00.
    pose proof (Hfb 0 0 ltac:(lia) ltac:(nia)) as B00.
    split; [|split].
    + intros i j c (Hi & Hj & Hc). rewrite <- Hf. apply Hall. apply Hany; [lia|].
      apply join_index; lia.
    + assert (exists j i, 0 <= j < h /\ 0 <= i < w * icc inp /\ f j i = fst s) as (j & i & Hj & Hi & Hv).
      { destruct Hmn as [Hmn|(j' & i' & Hs & Hv)].
        - exists 0, 0. repeat split; try lia; try nia.
        - exists j', i'. unfold seen in Hs. repeat split; try lia; auto. }
      destruct (Hf' j i Hj Hi) as (i0 & c & Hin & He'). exists i0, j, c. split; [exact Hin|]. congruence.
    + assert (exists j i, 0 <= j < h /\ 0 <= i < w * icc inp /\ f j i = snd s) as (j & i & Hj & Hi & Hv).
      { destruct Hmx as [Hmx|(j' & i' & Hs & Hv)].
        - exists 0, 0. repeat split; try lia; try nia.
        - exists j', i'. unfold seen in Hs. repeat split; try lia; auto. }
      destruct (Hf' j i Hj Hi) as (i0 & c & Hin & He'). exists i0, j, c. split; [exact Hin|]. congruence.
Qed.

(** ** The table *)

Lemma table_ok {E} (g : Z -> res E Z) (val : Z -> Z) n : forall k t,
  (forall i, k <= i < k + Z.of_nat n -> g i = Ok (val i)) ->
  iterM n k (fun i t => do v <- g i; Ok (t ++ [v])) t
  = Ok (t ++ map (fun d => val (k + Z.of_nat d)) (seq 0 n)).
Proof.
  induction n as [|n IH]; intros k t H; cbn [iterM].
  - rewrite app_nil_r. reflexivity.
  - rewrite H by lia. cbn [bind]. rewrite IH by (intros; apply H; lia).
    f_equal. rewrite <- app_assoc. f_equal. cbn [app seq map].
    replace (k + Z.of_nat 0) with k by lia. f_equal. rewrite <- seq_shift, map_map. apply map_ext.
    intros a. f_equal. lia.
Qed.

Lemma zth_table (val : Z -> Z) n i : 0 <= i < Z.of_nat n ->
  zth (map (fun d => val (0 + Z.of_nat d)) (seq 0 n)) i = val i.
Proof.
  intros Hi. unfold zth.
  rewrite (nth_indep _ 0 (val (0 + Z.of_nat 0))) by (rewrite map_length, seq_length; lia).
  rewrite (map_nth (fun d => val (0 + Z.of_nat d))). rewrite seq_nth by lia. f_equal. lia.
Qed.

(** Every value the table can hold for a sample between minimum and maximum, for every
    difference of maximum and minimum: it is an integer nearest to k * 255 / d. *)
Lemma norm_value_near d k : 1 <= d < 255 -> -255 <= k <= 255 ->
  exists r, isR (norm_value 0 d k) r /\
    (Rabs (r - (IZR k * (255 / IZR d) + / 2)) <= bpow radix2 (-35))%R.
Proof.
  intros Hd Hk. unfold norm_value. rewrite !Z.sub_0_r.
  destruct (divZ_bound 255 d 8) as (D1 & D2 & D3); try lia.
  assert (P8 : bpow radix2 8 = 256%R) by reflexivity.
  assert (Hdr : (1 <= IZR d)%R) by (apply IZR_le; lia).
  assert (Hkr : (-256 <= IZR k <= 256)%R) by (split; apply IZR_le; lia).
  assert (Hc : (Rabs (255 / IZR d) <= bpow radix2 8)%R).
  { rewrite P8, Rabs_pos_eq.
    - apply Rmult_le_reg_r with (IZR d); [lra|]. unfold Rdiv. rewrite Rmult_assoc, Rinv_l by lra. lra.
    - apply Rmult_le_pos; [lra|]. apply Rlt_le, Rinv_0_lt_compat. lra. }
  pose proof (rnd_error (255 / IZR d) 8 ltac:(lia) Hc) as E1.
  assert (Hk8 : (Rabs (IZR k) <= bpow radix2 8)%R) by (rewrite P8; apply Rabs_le; lra).
  destruct (mul_bound _ _ _ _ 8 8 (isR_ofZ k ltac:(lia)) D1 Hk8 D3 ltac:(lia)) as (M1 & M2).
  change (8 + 8) with 16 in M2.
  assert (E2 : (Rabs (rnd (IZR k * rnd (255 / IZR d)) - IZR k * (255 / IZR d)) <= bpow radix2 (-36))%R).
  { eapply Rle_trans; [apply (near_rnd _ _ (256 * bpow radix2 (8 - 53)) 16); [lia| |]|].
    - rewrite <- Rmult_minus_distr_l, Rabs_mult. apply Rmult_le_compat; try apply Rabs_pos; [rewrite <- P8; exact Hk8|exact E1].
    - rewrite Rabs_mult. replace (bpow radix2 16) with (bpow radix2 8 * bpow radix2 8)%R by (cbn; lra).
      apply Rmult_le_compat; try apply Rabs_pos; assumption.
    - change (8 - 53) with (-45). change (16 - 53) with (-37). cbn. lra. }
  assert (Hh : (Rabs (/ 2) <= bpow radix2 16)%R) by (rewrite Rabs_pos_eq by lra; cbn; lra).
  destruct (add_bound _ _ _ _ 16 M1 isR_half M2 Hh ltac:(lia)) as (A1 & A2).
  eexists. split; [exact A1|].
  eapply Rle_trans; [apply (near_rnd _ _ (bpow radix2 (-36)) 17); [lia| |]|].
  - replace (rnd (IZR k * rnd (255 / IZR d)) + / 2 - (IZR k * (255 / IZR d) + / 2))%R
      with (rnd (IZR k * rnd (255 / IZR d)) - IZR k * (255 / IZR d))%R by ring. exact E2.
  - eapply Rle_trans; [apply Rabs_triang|]. replace (bpow radix2 17) with (bpow radix2 16 + bpow radix2 16)%R by (cbn; lra). lra.
  - change (17 - 53) with (-36). cbn. lra.
Qed.

Lemma nearest d k : 1 <= d < 255 -> 0 <= k <= d ->
  exists z, dtrunc (norm_value 0 d k) = Some z /\ 0 <= z < 256 /\ Z.abs (2 * d * z - 510 * k) <= d.
Proof.
  intros Hd Hk. destruct (norm_value_near d k Hd ltac:(lia)) as (r & Hr & He).
  exists (Ztrunc r). split; [apply isR_trunc, Hr|].
  set (q := (IZR k * (255 / IZR d))%R) in *. set (e := bpow radix2 (-35)) in *.
  assert (Hdr : (1 <= IZR d <= 254)%R) by (split; apply IZR_le; lia).
  assert (Hkr : (0 <= IZR k <= IZR d)%R) by (split; apply IZR_le; lia).
  assert (Hq : (q * IZR d = 255 * IZR k)%R) by (unfold q; field; lra).
  assert (Hq0 : (0 <= q)%R) by (apply Rmult_le_pos; [lra|]; apply Rmult_le_pos; [lra|]; apply Rlt_le, Rinv_0_lt_compat; lra).
  assert (Hq1 : (q <= 255)%R) by (apply Rmult_le_reg_r with (IZR d); lra).
  assert (He0 : (0 < e < / 1000000)%R) by (unfold e; cbn; lra).
  apply Rabs_le_inv in He. destruct He as (He1 & He2).
  rewrite Ztrunc_floor by lra.
  pose proof (Zfloor_lb r) as L1. pose proof (Zfloor_ub r) as L2. set (z := Zfloor r) in *. clearbody z.
  assert (Hz : 0 <= z < 256).
  { split; [|apply lt_IZR; simpl; lra]. assert (-1 < z); [|lia]. apply lt_IZR. simpl. lra. }
  split; [exact Hz|].
  assert (N1 : (2 * (IZR d * IZR z) - 510 * IZR k < IZR d + 1)%R).
  { assert (IZR d * IZR z <= IZR d * (q + / 2 + e))%R by (apply Rmult_le_compat_l; lra).
    assert (IZR d * e <= 254 * / 1000000)%R by (apply Rmult_le_compat; lra). nra. }
  assert (N2 : (- (IZR d + 1) < 2 * (IZR d * IZR z) - 510 * IZR k)%R).
  { assert (IZR d * (q - / 2 - e) <= IZR d * IZR z)%R by (apply Rmult_le_compat_l; lra).
    assert (IZR d * e <= 254 * / 1000000)%R by (apply Rmult_le_compat; lra). nra. }
  rewrite <- !mult_IZR, <- minus_IZR in N1, N2. rewrite <- plus_IZR in N1, N2. rewrite <- opp_IZR in N2.
  apply lt_IZR in N1. apply lt_IZR in N2. lia.
Qed.

Lemma norm_shift mn mx i : norm_value mn mx i = norm_value 0 (mx - mn) (i - mn).
Proof. unfold norm_value. rewrite !Z.sub_0_r. reflexivity. Qed.

Lemma norm_nearest mn mx i : mn < mx -> mx - mn < 255 -> mn <= i <= mx ->
  exists z, dtrunc (norm_value mn mx i) = Some z /\ 0 <= z < 256 /\
    Z.abs (2 * (mx - mn) * z - 510 * (i - mn)) <= mx - mn.
Proof.
  intros H1 H2 H3. rewrite norm_shift. apply nearest; lia.
Qed.

Lemma norm_table_ok junk mn mx :
  (forall d, exists z, junk d = Ok z) -> mn < mx -> mx - mn < 255 ->
  exists table, norm_table junk mn mx = Ok table /\ length table = 256%nat /\
    forall i, mn <= i <= mx -> 0 <= i < 256 ->
      0 <= zth table i < 256 /\ Z.abs (2 * (mx - mn) * zth table i - 510 * (i - mn)) <= mx - mn.
Proof.
  intros Hj H1 H2.
  set (val := fun i => match cast_to 256 junk (norm_value mn mx i) with Ok z => z | _ => 0 end).
  assert (Hval : forall i, cast_to 256 junk (norm_value mn mx i) = Ok (val i)).
  { intros i. unfold val, cast_to. destruct (dtrunc (norm_value mn mx i)) as [z|].
    - destruct ((0 <=? z) && (z <? 256)); [reflexivity|]. destruct (Hj (norm_value mn mx i)) as (z' & ->). reflexivity.
    - destruct (Hj (norm_value mn mx i)) as (z' & ->). reflexivity. }
  exists (map (fun d => val (0 + Z.of_nat d)) (seq 0 256)). split; [|split].
  - unfold norm_table. rewrite (table_ok _ val) by (intros; apply Hval). reflexivity.
  - rewrite map_length, seq_length. reflexivity.
  - intros i Hi Hb. rewrite zth_table by lia.
    destruct (norm_nearest mn mx i H1 H2 Hi) as (z & Ht & Hz & Hn).
    unfold val, cast_to. rewrite Ht. destruct (Z.leb_spec 0 z), (Z.ltb_spec z 256); try lia.
    cbn [andb]. lia.
Qed.

(** ** Normalize *)

Lemma Normalize_ok junk m inp xi yi out xo yo w h lo hi :
  (forall d, exists z, junk d = Ok z) ->
  area m inp xi yi w h -> area m out xo yo w h -> icc inp = icc out ->
  roi_bytes m inp xi yi w h ->
  no_hazard out xo yo inp xi yi w h ->
  (forall i j c, inside w h (icc inp) i j c -> lo <= pixel m inp (xi + i) (yi + j) c <= hi) ->
  (exists i j c, inside w h (icc inp) i j c /\ pixel m inp (xi + i) (yi + j) c = lo) ->
  (exists i j c, inside w h (icc inp) i j c /\ pixel m inp (xi + i) (yi + j) c = hi) ->
  (lo < hi /\ hi - lo < 255 \/ disjoint out xo yo w h inp xi yi w h) ->
  exists f,
    writes (Normalize junk m inp xi yi out xo yo w h) m out xo yo w h
      (fun i j c => f (pixel m inp (xi + i) (yi + j) c)) /\
    (lo = hi -> f lo = lo) /\
    (lo < hi -> forall v, lo <= v <= hi ->
       0 <= f v < 256 /\ Z.abs (2 * (hi - lo) * f v - 510 * (v - lo)) <= hi - lo).
Proof.
  intros Hj (W1 & R1) (Wo & Ro) C B N Hall (il & jl & cl & Hinl & Hvl) (ih & jh & ch & Hinh & Hvh) Hov.
  destruct (min_max_ok m inp xi yi w h (conj W1 R1) B) as (mn & mx & He & Hb & (i1 & j1 & c1 & Hin1 & Hv1) & (i2 & j2 & c2 & Hin2 & Hv2)).
  assert (E1 : mn = lo).
  { pose proof (Hb il jl cl Hinl). pose proof (Hall i1 j1 c1 Hin1). lia. }
  assert (E2 : mx = hi).
  { pose proof (Hb ih jh ch Hinh). pose proof (Hall i2 j2 c2 Hin2). lia. }
  rewrite E1, E2 in He. rewrite E1 in Hv1. rewrite E2 in Hv2. clear Hb.
  pose proof (B i1 j1 c1 Hin1) as Bl. pose proof (B i2 j2 c2 Hin2) as Bh. rewrite Hv1 in Bl. rewrite Hv2 in Bh.
  pose proof (Hall i1 j1 c1 Hin1) as Hle. rewrite Hv1 in Hle.
  unfold Normalize, valid_roi2, common_cc2.
  rewrite (valid_roi_ok m inp) by assumption. rewrite (valid_roi_ok m out) by assumption. cbn [andb].
  assert (Ecc : (icc inp =? icc out) = true) by (apply Z.eqb_eq; exact C). rewrite Ecc, He. cbn [bind].
  destruct ((lo =? 0) && (hi =? 255) || (lo =? hi)) eqn:Eb.
  - assert (D : disjoint out xo yo w h inp xi yi w h).
    { destruct Hov as [Hov|]; [|assumption]. exfalso. apply orb_prop in Eb. destruct Eb as [Eb|Eb].
      - apply andb_prop in Eb. lia.
      - lia. }
    exists (fun v => v). split; [apply Copy_writes; assumption|]. split; [auto|].
    intros Hlt v Hv. apply orb_prop in Eb. destruct Eb as [Eb|Eb]; [|lia]. apply andb_prop in Eb.
    assert (lo = 0) by lia. assert (hi = 255) by lia. subst. lia.
  - apply orb_false_elim in Eb. destruct Eb as (Eb & Ene). apply Z.eqb_neq in Ene.
    assert (hi - lo < 255).
    { apply andb_false_elim in Eb. destruct Eb; lia. }
    destruct (norm_table_ok junk lo hi Hj ltac:(lia) ltac:(lia)) as (table & Et & Hlen & Hval).
    rewrite Et. cbn [bind]. exists (zth table). split; [|split].
    + unfold LookupTable. apply pixelwise1_writes; auto.
      * rewrite Hlen. cbn [Z.of_nat]. unfold common_cc2. rewrite Ecc. reflexivity.
      * intros i j c Hin. rewrite <- C in Hin. pose proof (B i j c Hin) as Hbb.
        unfold vnth, zth. rewrite Hlen.
        destruct (Z.leb_spec 0 (pixel m inp (xi + i) (yi + j) c)); [|lia].
        destruct (Z.ltb_spec (pixel m inp (xi + i) (yi + j) c) (Z.of_nat 256)); [|lia]. reflexivity.
    + lia.
    + intros Hlt v Hv. apply Hval; lia.
Qed.
