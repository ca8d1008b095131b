(** Proofs about launches of the OpenCL back end. *)
From Coq Require Import ZArith List Bool Lia Permutation.
From Verif Require Import Base Image Spec BaseProofs ImgFun ImgLemmas ImgProofs SafeProofs ReduceProofs FuncPoolProofs
  Cuda CudaProofs CudaRuns CudaSums OpenCL.
Import ListNotations.
Open Scope Z_scope.

Ltac Zify.zify_post_hook ::= idtac.

Lemma u64_small z : 0 <= z < W64 -> u64 z = z.
Proof. intros H. unfold u64. apply Z.mod_small. exact H. Qed.
Lemma W64_val : W64 = 18446744073709551616.
Proof. reflexivity. Qed.

(** *** The side of the square or cube *)
Lemma side64_spec s n : s = 2 \/ s = 3 -> forall k total, 1 <= total < 2 ^ 60 -> (n + k = 31)%nat ->
  (k = 0%nat \/ 2 ^ (s * Z.of_nat k) <= total) ->
  exists c, (forall E : Type, @side_loop64 E (S n) s total (2 ^ Z.of_nat k, 2 ^ (s * (Z.of_nat k + 1))) = Ok (c, 2 ^ s * c ^ s)) /\
    1 <= c /\ (c = 1 \/ c ^ s <= total) /\ total < 2 ^ s * c ^ s.
Proof.
  intros Hs. induction n as [|n IH]; intros k total Ht Hn Hc.
  - assert (k = 31)%nat by lia. subst k. exfalso. destruct Hc as [Hc|Hc]; [lia|].
    assert (2 ^ 60 <= 2 ^ (s * Z.of_nat 31)) by (apply Z.pow_le_mono_r; lia). lia.
  - assert (Es : 2 ^ (s * (Z.of_nat k + 1)) = 2 ^ s * (2 ^ Z.of_nat k) ^ s).
    { rewrite <- Z.pow_mul_r, <- Z.pow_add_r by lia. f_equal. lia. }
    assert (P2 : 0 < 2 ^ Z.of_nat k) by (apply Z.pow_pos_nonneg; lia).
    destruct (Z_le_gt_dec (2 ^ (s * (Z.of_nat k + 1))) total) as [Hle|Hgt].
    + destruct (IH (S k) total) as (c & Hl & H1 & H2 & H3); [assumption|lia|right; rewrite Nat2Z.inj_succ; exact Hle|].
      exists c. split; [|split; [assumption|split; assumption]]. intros E. specialize (Hl E). rewrite <- Hl.
      unfold side_loop64. cbn [loop fst snd]. apply Z.leb_le in Hle as Hb. rewrite Hb.
      cbn [bind]. rewrite !Z.shiftl_mul_pow2 by lia.
      assert (Hk : Z.of_nat k < 60).
      { apply (Z.pow_lt_mono_r_iff 2); try lia. eapply Z.le_lt_trans; [|apply Ht]. eapply Z.le_trans; [|exact Hle]. apply Z.pow_le_mono_r; lia. }
      assert (2 ^ Z.of_nat k * 2 ^ 1 = 2 ^ Z.of_nat (S k)) as -> by (rewrite <- Z.pow_add_r by lia; f_equal; lia).
      assert (2 ^ (s * (Z.of_nat k + 1)) * 2 ^ s = 2 ^ (s * (Z.of_nat (S k) + 1))) as -> by (rewrite <- Z.pow_add_r by lia; f_equal; lia).
      rewrite (u64_small (2 ^ Z.of_nat (S k))).
      2:{ split; [apply Z.pow_nonneg; lia|]. change W64 with (2 ^ 64). apply Z.pow_lt_mono_r; lia. }
      rewrite u64_small; [reflexivity|].
      split; [apply Z.pow_nonneg; lia|]. change W64 with (2 ^ 64). apply Z.pow_lt_mono_r; try lia.
      assert (s * (Z.of_nat k + 1) < 60); [|lia]. apply (Z.pow_lt_mono_r_iff 2); try lia.
    + exists (2 ^ Z.of_nat k). rewrite Es in *. split; [|split; [lia|split; [|lia]]].
      * intros E. unfold side_loop64. cbn [loop fst snd]. destruct (Z.leb_spec (2 ^ s * (2 ^ Z.of_nat k) ^ s) total); [lia|].
        reflexivity.
      * destruct Hc as [-> |Hc]; [left; reflexivity|right]. rewrite <- Z.pow_mul_r by lia. rewrite Z.mul_comm. exact Hc.
Qed.

Lemma cl_threads2_ok total : 1 <= total < 2 ^ 60 ->
  exists c, (forall E : Type, @cl_threads2 E cl_fuel total = Ok (mkDim3 (total / c) c 1)) /\
    1 <= c <= total /\ (c = 1 \/ c * c <= total).
Proof.
  intros Ht. destruct (side64_spec 2 31 (or_introl eq_refl) 0 total) as (c & E1 & H1 & H2 & _); try lia; auto.
  replace (c ^ 2) with (c * c) in H2 by ring. exists c. split; [|split; [nia|exact H2]]. intros E. unfold cl_threads2.
  assert (E2 : @side_loop64 E cl_fuel 2 total (1, 4) = Ok (c, 2 ^ 2 * c ^ 2)).
  { specialize (E1 E). unfold side_loop64 in *. change cl_fuel with (32 + 32)%nat. apply loop_more. exact E1. }
  rewrite E2. cbn [bind]. destruct (Z.eqb_spec c 0); [lia|]. reflexivity.
Qed.

Lemma cl_threads3_ok total : 1 <= total < 2 ^ 60 ->
  exists a b c, (forall E : Type, @cl_threads3 E cl_fuel total = Ok (mkDim3 a b c)) /\
    1 <= a /\ 1 <= b /\ 1 <= c /\ a * b * c <= total.
Proof.
  intros Ht. destruct (side64_spec 3 31 (or_intror eq_refl) 0 total) as (c & E1 & H1 & H2 & _); try lia; auto.
  replace (c ^ 3) with (c * c * c) in H2 by ring.
  assert (Hc : c <= total) by (destruct H2 as [->|H2]; nia).
  assert (Hd : 1 <= total / c) by (apply Z.div_le_lower_bound; lia).
  assert (Hu : total / c <= total) by (apply Z.div_le_upper_bound; nia).
  destruct (cl_threads2_ok (total / c)) as (b & E3 & Hb1 & Hb2); [lia|].
  exists ((total / c) / b), b, c. split; [|split; [|split; [|split]]]; try lia.
  - intros E. unfold cl_threads3.
    assert (E2 : @side_loop64 E cl_fuel 3 total (1, 8) = Ok (c, 2 ^ 3 * c ^ 3)).
    { specialize (E1 E). unfold side_loop64 in *. change cl_fuel with (32 + 32)%nat. apply loop_more. exact E1. }
    rewrite E2. cbn [bind]. destruct (Z.eqb_spec c 0); [lia|]. rewrite E3. reflexivity.
  - apply Z.div_le_lower_bound; lia.
  - assert ((total / c) / b * b <= total / c) by (rewrite Z.mul_comm; apply Z.mul_div_le; lia).
    assert (total / c * c <= total) by (rewrite Z.mul_comm; apply Z.mul_div_le; lia). nia.
Qed.

Lemma round_up_ok size t : 0 < size < 2 ^ 62 -> 1 <= t < 2 ^ 62 ->
  exists g, (forall E : Type, @round_up E size t = Ok g) /\ size <= g < size + t /\ g mod t = 0.
Proof.
  intros Hs Ht. exists ((size + t - 1) / t * t).
  pose proof (Z.div_mod (size + t - 1) t). pose proof (Z.mod_pos_bound (size + t - 1) t).
  split; [|split; [nia|apply Z.mod_mul; lia]].
  intros E. unfold round_up. destruct (Z.eqb_spec t 0); [lia|].
  change W64 with (2 ^ 64) in *. pose proof (W64_val).
  rewrite (u64_small (size + t - 1)) by lia. rewrite u64_small by nia. reflexivity.
Qed.

(** A device as the specification allows it: at least one work-item per group.  2^60 is far
    above any real limit. *)
Record cl_ok (d : cldevice) : Prop := mkClOk {
  cl_threads_ok : 1 <= clThreads d < 2 ^ 60;
  cl_items_ok : dim_pos (clItems d)
}.
(** A work-group may be as long as it is big, in both directions. *)
Definition cl_roomy (d : cldevice) : Prop := clThreads d <= dx (clItems d) /\ clThreads d <= dy (clItems d).

Lemma cl_accepts_iff d r : cl_accepts d r = true <->
  (1 <= dx (rGlobal r) /\ 1 <= dy (rGlobal r) /\ 1 <= dz (rGlobal r)) /\
  (1 <= dx (rLocal r) /\ 1 <= dy (rLocal r) /\ 1 <= dz (rLocal r)) /\
  (dx (rGlobal r) mod dx (rLocal r) = 0 /\ dy (rGlobal r) mod dy (rLocal r) = 0 /\ dz (rGlobal r) mod dz (rLocal r) = 0) /\
  (dx (rLocal r) <= dx (clItems d) /\ dy (rLocal r) <= dy (clItems d) /\ dz (rLocal r) <= dz (clItems d)) /\
  dx (rLocal r) * dy (rLocal r) * dz (rLocal r) <= clThreads d.
Proof. unfold cl_accepts. rewrite !andb_true_iff, !Z.leb_le, !Z.eqb_eq. intuition. Qed.

Lemma params2_ok d w h : cl_ok d -> 0 < w < 2 ^ 62 -> 0 < h < 2 ^ 62 ->
  exists r, (forall E : Type, @kernelParameters2 E d w h = Ok r) /\
    w <= dx (rGlobal r) /\ h <= dy (rGlobal r) /\ dx (rGlobal r) < w + clThreads d /\ dy (rGlobal r) < h + clThreads d /\
    (cl_roomy d -> cl_accepts d r = true).
Proof.
  intros [Ht Hi] Hw Hh. destruct (cl_threads2_ok (clThreads d)) as (c & E & Hc & Hcc); [assumption|].
  set (T := clThreads d) in *.
  assert (H1 : 1 <= T / c) by (apply Z.div_le_lower_bound; lia).
  assert (H2 : T / c <= T) by (apply Z.div_le_upper_bound; nia).
  assert (H3 : T / c * c <= T) by (rewrite Z.mul_comm; apply Z.mul_div_le; lia).
  assert (P : 2 ^ 60 < 2 ^ 62) by (apply Z.pow_lt_mono_r; lia).
  destruct (round_up_ok w (T / c)) as (gx & Ex & Bx & Mx); [assumption|lia|].
  destruct (round_up_ok h c) as (gy & Ey & By & My); [assumption|lia|].
  exists (mkRange (mkDim3 gx gy 1) (mkDim3 (T / c) c 1)). cbn [rGlobal dx dy].
  split; [|split; [lia|split; [lia|split; [lia|split; [lia|]]]]].
  - intros E0. unfold kernelParameters2. fold T. rewrite E. cbn [bind dx dy]. rewrite Ex, Ey. reflexivity.
  - intros [R1 R2]. fold T in R1, R2. destruct Hi as (I1 & I2 & I3). apply cl_accepts_iff. cbn [rGlobal rLocal dx dy dz]. fold T.
    repeat split; try lia; try assumption; try apply Z.mod_1_r.
Qed.

Lemma params1_ok d n : cl_ok d -> 0 < n < 2 ^ 62 ->
  exists r, (forall E : Type, @kernelParameters1 E d n = Ok r) /\
    n <= dx (rGlobal r) /\ dx (rGlobal r) < n + clThreads d /\ (cl_roomy d -> cl_accepts d r = true).
Proof.
  intros [Ht Hi] Hn. assert (P : 2 ^ 60 < 2 ^ 62) by (apply Z.pow_lt_mono_r; lia).
  destruct (round_up_ok n (clThreads d)) as (g & E & B & M); [assumption|lia|].
  exists (mkRange (mkDim3 g 1 1) (mkDim3 (clThreads d) 1 1)). cbn [rGlobal dx].
  split; [|split; [lia|split; [lia|]]].
  - intros E0. unfold kernelParameters1. rewrite E. reflexivity.
  - intros [R1 R2]. destruct Hi as (I1 & I2 & I3). apply cl_accepts_iff. cbn [rGlobal rLocal dx dy dz].
    repeat split; try lia; try assumption; try apply Z.mod_1_r.
Qed.

(** *** Work-items *)
Lemma items_pairs r w h : w <= dx (rGlobal r) -> h <= dy (rGlobal r) ->
  Permutation (filter (inr w h) (cl_items r)) (pairs w h).
Proof.
  intros Hw Hh. apply NoDup_Permutation.
  - apply NoDup_filter. unfold cl_items. apply NoDup_list_prod; apply zrange_NoDup.
  - apply pairs_NoDup.
  - intros [x y]. rewrite filter_In, pairs_In. unfold cl_items. rewrite in_prod_iff, !zrange_In.
    unfold inr. cbn [fst snd]. rewrite andb_true_iff, !Z.ltb_lt. lia.
Qed.

Lemma cl_launch2D_run d w h m k (Q : mem -> Prop) : cl_ok d -> 0 < w < W32 -> 0 < h < W32 ->
  (forall x y, 0 <= x -> 0 <= y -> ~ (x < w /\ y < h) -> k x y = PDone) ->
  (forall x y, 0 <= x < w -> 0 <= y < h -> sound m (get m) (others w h m k x y) (k x y)) ->
  (forall es, Permutation es (all_events w h m k) -> Q (apply_all m es)) ->
  device_run (cl_roomy d) m (fun s => cl_launch2D d s m w h k) Q.
Proof.
  intros Hd Hw Hh Hout Hs HQ.
  assert (P : W32 < 2 ^ 62) by (vm_compute; reflexivity).
  destruct (params2_ok d w h Hd) as (r & H & Gx & Gy & _ & _ & Ha); [lia|lia|].
  destruct (cl_accepts d r) eqn:Hl.
  2:{ right. split; [intros C; apply Ha in C; discriminate|].
      intros s. exists m. unfold cl_launch2D. rewrite H. cbn [bind]. rewrite Hl. split; [reflexivity|apply same_mem_refl]. }
  set (kk := fun c : Z * Z => k (fst c) (snd c)).
  assert (Hd' : forall a, In a (cl_items r) -> inr w h a = false -> kk a = PDone).
  { intros [x y] Hin Hi. unfold cl_items in Hin. apply in_prod_iff in Hin as [Hx Hy]. apply zrange_In in Hx, Hy.
    unfold kk. cbn [fst snd]. apply Hout; try lia. intros [A B]. unfold inr in Hi. cbn [fst snd] in Hi.
    apply Z.ltb_lt in A, B. rewrite A, B in Hi. discriminate. }
  assert (Hn : NoDup (cl_items r)) by (unfold cl_items; apply NoDup_list_prod; apply zrange_NoDup).
  assert (Hsep : separate m (map kk (cl_items r))).
  { eapply separate_ids; [exact Hn|apply items_pairs; eassumption|exact Hd'|].
    intros [x y] Hx. apply pairs_In in Hx as [Hx Hy]. unfold kk at 2. cbn [fst snd].
    eapply sound_weak; [|apply Hs; assumption]. intros q ([x' y'] & Ha' & Hne & Hq).
    apply pairs_In in Ha' as [Hx' Hy']. exists x', y'. auto. }
  left. exists (length (map kk (cl_items r))).
  assert (R : every_run (length (map kk (cl_items r))) (fun s => run_grid s m (map kk (cl_items r))) Q).
  { eapply every_run_weak; [|apply run_grid_linear; exact Hsep]. intros M (es & HP & ->). apply HQ.
    rewrite HP. apply (ids_events m kk (inr w h)); [apply items_pairs; assumption|exact Hd']. }
  destruct R as [R1 (K & R2)]. split.
  - intros s. unfold cl_launch2D. rewrite H. cbn [bind]. rewrite Hl. apply R1.
  - exists K. intros s. unfold cl_launch2D. rewrite H. cbn [bind]. rewrite Hl. apply R2.
Qed.

Lemma cl_launch1D_run d n m k (Q : mem -> Prop) : cl_ok d -> 0 < n < 2 ^ 62 ->
  (forall x, 0 <= x -> sound m (get m) (fun q => exists x', 0 <= x' /\ x' <> x /\ In q (map fst (events (get m) (k x')))) (k x)) ->
  (forall t es, n <= t -> Permutation es (flat_map (fun x => events (get m) (k x)) (zrange t)) -> Q (apply_all m es)) ->
  device_run (cl_roomy d) m (fun s => cl_launch1D d s m n k) Q.
Proof.
  intros Hd Hn Hs HQ.
  destruct (params1_ok d n Hd Hn) as (r & H & Gx & _ & Ha).
  destruct (cl_accepts d r) eqn:Hl.
  2:{ right. split; [intros C; apply Ha in C; discriminate|].
      intros s. exists m. unfold cl_launch1D. rewrite H. cbn [bind]. rewrite Hl. split; [reflexivity|apply same_mem_refl]. }
  set (t := dx (rGlobal r)) in *.
  assert (HP : Permutation (filter (fun _ => true) (zrange t)) (zrange t)).
  { replace (filter (fun _ : Z => true) (zrange t)) with (zrange t); [reflexivity|].
    induction (zrange t) as [|a l IH]; cbn [filter]; congruence. }
  assert (Hsep : separate m (map k (zrange t))).
  { eapply separate_ids; [apply zrange_NoDup|exact HP|discriminate|].
    intros x Hx. apply zrange_In in Hx. eapply sound_weak; [|apply Hs; lia].
    intros q (x' & Hx' & Hne & Hq). apply zrange_In in Hx'. exists x'. split; [lia|auto]. }
  left. exists (length (map k (zrange t))).
  assert (R : every_run (length (map k (zrange t))) (fun s => run_grid s m (map k (zrange t))) Q).
  { eapply every_run_weak; [|apply run_grid_linear; exact Hsep]. intros M (es & Hes & ->). apply (HQ t); [lia|].
    rewrite Hes. apply (ids_events m k (fun _ => true)); [exact HP|discriminate]. }
  destruct R as [R1 (K & R2)]. split.
  - intros s. unfold cl_launch1D. rewrite H. cbn [bind]. rewrite Hl. apply R1.
  - exists K. intros s. unfold cl_launch1D. rewrite H. cbn [bind]. rewrite Hl. apply R2.
Qed.

(** *** Addresses *)
Lemma dataptr_origin m im x y w h : wf m im -> roi_in im x y w h ->
  padd (dataptr im) (start_at im x y (icc im)) = origin im x y (icc im) /\
  start_at im x y (icc im) = y * irs im + x * icc im.
Proof.
  intros Hw Hr. pose proof (wf_rs _ _ Hw). pose proof (wf_size _ _ Hw). pose proof (wf_cc_pos _ _ Hw). destruct Hr.
  assert (S1 : x * icc im + 1 <= irs im) by nia.
  assert (S2 : (y + 1) * irs im <= ih im * irs im) by nia.
  assert (E : start_at im x y (icc im) = y * irs im + x * icc im).
  { unfold start_at. rewrite (u32_small (y * irs im)) by nia. rewrite (u32_small (x * icc im)) by nia. apply u32_small. nia. }
  split; [|exact E]. rewrite E, (dataptr_ibase m) by assumption. unfold origin, padd. reflexivity.
Qed.
Lemma swapped_start im x y cc : swapped_at im x y cc = start_at im y x cc.
Proof. reflexivity. Qed.

Lemma at_cl_ok m im x y w h i j : wf m im -> roi_in im x y w h -> 0 <= i < w * icc im -> 0 <= j < h ->
  at_cl (dataptr im) (start_at im x y (icc im)) (irs im) i j = padd (origin im x y (icc im)) (j * irs im + i).
Proof.
  intros Hw Hr Hi Hj. destruct (dataptr_origin m im x y w h Hw Hr) as [E1 E2].
  destruct (sample_small m im x y w h i j Hw Hr Hi Hj) as [S1 S2].
  unfold at_cl. rewrite <- E1, padd_padd. f_equal.
  assert (S3 : 0 <= start_at im x y (icc im) < W32) by (unfold start_at; apply u32_range).
  rewrite u64_small; [ring|]. unfold W32 in *. rewrite W64_val. lia.
Qed.
