(** Proofs about the functions of OpenCL.v, continued: functions with a device array, pixels,
    memory, copies. *)
From Coq Require Import ZArith List Bool Lia Permutation.
From Verif Require Import Base Image Spec BaseProofs ImgFun ImgLemmas ImgProofs SafeProofs ReduceProofs FuncPoolProofs
  Cuda CudaProofs CudaRuns CudaSums OpenCL OpenCLProofs OpenCLRuns.
Import ListNotations.
Open Scope Z_scope.

Ltac Zify.zify_post_hook ::= idtac.

(** Every work-item adds [wt] to entry [idx] of the array. *)
Lemma cl_sum_launch d m im xi yi w h b n (W : Z) k idx wt :
  cl_ok d -> area m im xi yi w h -> len m b = 0 -> 0 <= n ->
  0 < W <= w * icc im ->
  let m1 := with_block m b (repeat 0 (Z.to_nat n)) in
  (forall x y, ~ (x < W /\ y < h) -> k x y = PDone) ->
  (forall x y, 0 <= x < W -> 0 <= y < h ->
     k x y = PLoad (padd (origin im xi yi (icc im)) (y * irs im + x)) (fun a => PAtomic (padd (b, 0) (idx x y a)) (fun v => u32 (v + wt a)) PDone)) ->
  (forall x y, 0 <= x < W -> 0 <= y < h -> 0 <= idx x y (get m (padd (origin im xi yi (icc im)) (y * irs im + x))) < n) ->
  device_run (cl_roomy d) m1 (fun s => do M <- cl_launch2D d s m1 W h k; Ok (M, block_values M b))
    (fun r => (forall p, fst p <> b -> get (fst r) p = get m p) /\ (forall b', b' <> b -> len (fst r) b' = len m b') /\
       forall M, same_mem m M -> same_mem m (fst (M, snd r)) /\ length (snd (M, snd r)) = Z.to_nat n /\
         forall v, 0 <= v < n -> nth (Z.to_nat v) (snd (M, snd r)) 0 =
           zsum h (fun j => zsum W (fun i => if v =? idx i j (get m (padd (origin im xi yi (icc im)) (j * irs im + i)))
             then wt (get m (padd (origin im xi yi (icc im)) (j * irs im + i))) else 0)) mod W32).
Proof.
  intros Hd A Hb Hn HW m1 Hout Hk Hidx. pose proof A as [Wi R].
  destruct (area_small m im xi yi w h A) as (SW & Sw & Sh).
  pose proof (wf_not_fresh m im b Wi Hb) as Hne.
  assert (Eg : forall x y, get m1 (padd (origin im xi yi (icc im)) (y * irs im + x)) = get m (padd (origin im xi yi (icc im)) (y * irs im + x))).
  { intros x y. unfold m1. rewrite with_block_get, origin_fst. destruct (Z.eqb_spec (fst (ibase im)) b); [contradiction|reflexivity]. }
  assert (Lb : len m1 b = n). { unfold m1. rewrite with_block_len, Z.eqb_refl, repeat_length. lia. }
  apply device_run_bind. apply cl_launch2D_run; [assumption|lia|lia| | | ].
  - intros x y _ _ H. apply Hout, H.
  - intros x y Hx Hy. rewrite Hk by assumption. cbn [sound]. split; [|split].
    + apply (cell_inb m1 im xi yi w h); auto; [|lia]. apply wf_with_block; assumption.
    + intros (x' & y' & Hx' & Hy' & _ & E). rewrite Hk in E by assumption. destruct E as [E|[]].
      cbn [fst] in E. apply (f_equal fst) in E. rewrite origin_fst in E. cbn in E. congruence.
    + rewrite Eg. split; [|exact I]. apply inb_iff. cbn [padd fst snd]. rewrite Lb. specialize (Hidx x y Hx Hy). lia.
  - intros es HP. cbn [fst snd].
    set (cell := fun c : Z * Z => padd (b, 0) (idx (fst c) (snd c) (get m (padd (origin im xi yi (icc im)) (snd c * irs im + fst c))))).
    set (wt' := fun c : Z * Z => wt (get m (padd (origin im xi yi (icc im)) (snd c * irs im + fst c)))).
    assert (HP' : Permutation es (map (fun c => (cell c, fun v => u32 (v + wt' c))) (pairs W h))).
    { rewrite HP. unfold all_events. erewrite (flat_map_pairs_ext _ _ _ (fun c => [(cell c, fun v => u32 (v + wt' c))])).
      - induction (pairs W h) as [|c l IH]; cbn [flat_map map app]; auto.
      - intros x y Hx Hy. cbn [fst snd]. rewrite Hk by assumption. cbn [events]. rewrite Eg. reflexivity. }
    apply Permutation_map_inv in HP' as (cs & -> & HC).
    pose proof (apply_all_len (map (fun c => (cell c, fun v => u32 (v + wt' c))) cs) m1) as HL.
    split; [|split].
    + intros p Hp. rewrite apply_all_untouched.
      * unfold m1. rewrite with_block_get. destruct (Z.eqb_spec (fst p) b); [contradiction|reflexivity].
      * intros e He E. apply in_map_iff in He as (c & <- & _). cbn [fst] in E. apply Hp. rewrite <- E. reflexivity.
    + intros b' Hb'. rewrite HL. unfold m1. rewrite with_block_len. destruct (Z.eqb_spec b' b); [contradiction|reflexivity].
    + intros M HM. split; [exact HM|]. split; [rewrite block_values_length, HL, Lb; reflexivity|].
      intros v Hv. rewrite block_values_nth by (rewrite HL, Lb; lia). rewrite apply_sums.
      * unfold m1 at 1. rewrite with_block_get. cbn [fst snd]. rewrite Z.eqb_refl, nth_repeat_0, Z.add_0_l.
        rewrite <- (lsum_perm _ _ _ HC), lsum_pairs. unfold u32. f_equal.
        apply zsum_ext. intros j Hj. apply zsum_ext. intros i Hi. unfold cell, wt'. cbn [fst snd].
        replace (b, v) with (padd (b, 0) v) by reflexivity. rewrite ptr_eqb_padd. reflexivity.
      * unfold m1. rewrite with_block_get. cbn [fst snd]. rewrite Z.eqb_refl, nth_repeat_0. unfold W32. lia.
Qed.

(** The histogram is that of the region at (y, x). *)
Lemma cl_Histogram_run d m im x y w h b : cl_ok d -> roi_in im x y w h ->
  area m im y x w h -> icc im = 1 -> bytes m im -> len m b = 0 ->
  device_run (cl_roomy d) m (fun s => cl_Histogram d (Some b) s m im x y w h)
    (fun r => same_mem m (fst r) /\ length (snd r) = 256%nat /\
       forall v, 0 <= v < 256 -> nth (Z.to_nat v) (snd r) 0 =
         zsum h (fun j => zcount w (fun i => pixel m im (y + i) (x + j) 0 =? v))).
Proof.
  intros Hd R0 A C B Hb. pose proof A as [W R].
  set (K := fun b' : Z => cl_histogramKernel (dataptr im) (start_at im y x (icc im)) (irs im) w h (b', 0)).
  set (F := fun (s : list nat) b' m' => do M <- cl_launch2D d s m' w h (K b'); Ok (M, block_values M b')).
  apply (device_run_ext _ _ (fun s => with_array m (Some b) (repeat 0 (Z.to_nat 256)) (F s))).
  { intros s. unfold cl_Histogram. rewrite (valid_roi_ok m), is_gray_true by assumption.
    unfold F, K. rewrite C. reflexivity. }
  apply (with_array_run (cl_roomy d) m b _ F). unfold F.
  assert (Pe : forall i j, pixel m im (y + i) (x + j) 0 = get m (padd (origin im y x (icc im)) (j * irs im + i))).
  { intros i j. unfold pixel. rewrite px_origin, C. rewrite Z.mul_1_r, Z.add_0_r. reflexivity. }
  assert (Pb : forall i j, 0 <= i < w -> 0 <= j < h -> 0 <= get m (padd (origin im y x (icc im)) (j * irs im + i)) < 256).
  { intros i j Hi Hj. rewrite <- Pe. destruct R. apply B; lia. }
  eapply device_run_weak; [|apply (cl_sum_launch d m im y x w h b 256 w (K b) (fun _ _ a => a) (fun _ => 1)); auto; try lia].
  - intros r (H1 & H2 & H3). split; [exact H1|]. split; [exact H2|]. intros M HM.
    destruct (H3 M HM) as (G1 & G2 & G3). split; [exact G1|]. split; [exact G2|].
    intros v Hv. rewrite G3 by assumption.
    rewrite (zsum_ext h _ (fun j => zcount w (fun i => pixel m im (y + i) (x + j) 0 =? v))).
    + apply Z.mod_small. destruct (area_small m im y x w h A) as (_ & Sw & Sh).
      pose proof (wf_size _ _ W). pose proof (wf_rs _ _ W). pose proof (wf_w _ _ W). pose proof (wf_h _ _ W).
      assert (Hb2 : h * 0 <= zsum h (fun j => zcount w (fun i => pixel m im (y + i) (x + j) 0 =? v)) <= h * w).
      { apply zsum_bound; [lia|]. intros j Hj. unfold zcount.
        assert (w * 0 <= zsum w (fun i => if pixel m im (y + i) (x + j) 0 =? v then 1 else 0) <= w * 1); [|lia].
        apply zsum_bound; [lia|]. intros i Hi. destruct (_ =? _); lia. }
      destruct R. assert (h * w <= ih im * irs im) by nia. lia.
    + intros j Hj. unfold zcount. apply zsum_ext. intros i Hi. rewrite Pe, Z.eqb_sym. reflexivity.
  - destruct R. rewrite C. lia.
  - intros a c H. apply in_range_out, H.
  - intros a c Ha Hc. unfold K, cl_histogramKernel. rewrite in_range_in by lia. rewrite (at_cl_ok m im y x w h) by (auto; lia). reflexivity.
Qed.

Lemma cl_Projection_run d m im x y w h b hor : cl_ok d ->
  area m im x y w h -> len m b = 0 ->
  device_run (cl_roomy d) m (fun s => cl_ProjectionProfile d (Some b) s m im x y w h hor)
    (fun r => same_mem m (fst r) /\
       if hor : bool
       then length (snd r) = Z.to_nat (w * icc im) /\
            forall i c, 0 <= i < w -> 0 <= c < icc im ->
              nth (Z.to_nat (i * icc im + c)) (snd r) 0 = zsum h (fun j => pixel m im (x + i) (y + j) c) mod W32
       else length (snd r) = Z.to_nat h /\
            forall j, 0 <= j < h -> nth (Z.to_nat j) (snd r) 0 =
              zsum w (fun i => zsum (icc im) (fun c => pixel m im (x + i) (y + j) c)) mod W32).
Proof.
  intros Hd A Hb. pose proof A as [W R]. pose proof (wf_cc_pos _ _ W) as Hcc.
  destruct (area_small m im x y w h A) as (SW & Sw & Sh).
  set (n := if hor then w * icc im else h).
  set (K := fun b' : Z => cl_projectionKernel hor (dataptr im) (start_at im x y (icc im)) (irs im) (w * icc im) h (b', 0)).
  set (F := fun (s : list nat) b' m' =>
     do M <- cl_launch2D d s m' (w * icc im) h (K b'); Ok (M, block_values M b')).
  apply (device_run_ext _ _ (fun s => with_array m (Some b) (repeat 0 (Z.to_nat n)) (F s))).
  { intros s. unfold cl_ProjectionProfile. rewrite (valid_roi_ok m) by assumption.
    rewrite (u32_small (w * icc im)) by lia. reflexivity. }
  apply (with_array_run (cl_roomy d) m b _ F). unfold F.
  assert (Pe : forall i j c, get m (padd (origin im x y (icc im)) (j * irs im + (i * icc im + c))) = pixel m im (x + i) (y + j) c).
  { intros i j c. unfold pixel. rewrite px_origin. reflexivity. }
  eapply device_run_weak; [|apply (cl_sum_launch d m im x y w h b n (w * icc im) (K b) (fun x y _ => if hor then x else y) (fun a => a)); auto; try lia].
  - intros r (H1 & H2 & H3). split; [exact H1|]. split; [exact H2|]. intros M HM.
    destruct (H3 M HM) as (G1 & G2 & G3). split; [exact G1|]. unfold n in *. clear K F H3. destruct hor.
    + split; [exact G2|]. intros i c Hi Hc. rewrite G3 by nia. f_equal. apply zsum_ext. intros j Hj.
      rewrite zsum_pick by nia. apply Pe.
    + split; [exact G2|]. intros j Hj. rewrite G3 by assumption. f_equal.
      rewrite (zsum_ext h _ (fun j' => if j =? j' then zsum (w * icc im) (fun i => get m (padd (origin im x y (icc im)) (j' * irs im + i))) else 0)).
      * rewrite (zsum_pick h j (fun j' => zsum (w * icc im) (fun i => get m (padd (origin im x y (icc im)) (j' * irs im + i))))) by lia.
        rewrite zsum_groups' by lia. apply zsum_ext. intros i Hi. apply zsum_ext. intros c Hc. apply Pe.
      * intros j' Hj'. apply zsum_if_const. lia.
  - unfold n. destruct hor; lia.
  - intros a c H. apply in_range_out, H.
  - intros a c Ha Hc. unfold K, cl_projectionKernel. rewrite in_range_in by lia. rewrite (at_cl_ok m im x y w h) by (auto; lia). reflexivity.
  - intros a c Ha Hc. unfold n. destruct hor; lia.
Qed.

(** ** IsEqual: the number of samples that differ *)
Lemma flat_map_filter {A B} (P : A -> bool) (f : A -> B) l :
  flat_map (fun a => if P a then [f a] else []) l = map f (filter P l).
Proof. induction l as [|a l IH]; cbn [flat_map filter map]; auto. destruct (P a); cbn [map app]; congruence. Qed.
Lemma lsum_const1 {A} (l : list A) : lsum l (fun _ => 1) = Z.of_nat (length l).
Proof. unfold lsum. induction l; cbn [fold_right length]; lia. Qed.
Lemma filter_len {A} (P : A -> bool) l : (length (filter P l) <= length l)%nat.
Proof. induction l as [|a l IH]; cbn [filter length]; auto. destruct (P a); cbn [length]; lia. Qed.

Lemma cl_IsEqual_run d m in1 x1 y1 in2 x2 y2 w h b : cl_ok d ->
  area m in1 x1 y1 w h -> area m in2 x2 y2 w h -> icc in1 = icc in2 -> len m b = 0 ->
  device_run (cl_roomy d) m (fun s => cl_IsEqual d (Some b) s m in1 x1 y1 in2 x2 y2 w h)
    (fun r => same_mem m (fst r) /\
       (snd r = true <-> forall i j c, inside w h (icc in1) i j c ->
          pixel m in1 (x1 + i) (y1 + j) c = pixel m in2 (x2 + i) (y2 + j) c)).
Proof.
  intros Hd A1 A2 C Hb. pose proof A1 as [W1 R1]. pose proof A2 as [W2 R2]. pose proof (wf_cc_pos _ _ W1) as Hcc.
  destruct (area_small m in1 x1 y1 w h A1) as (SW & Sw & Sh).
  pose proof (wf_not_fresh m in1 b W1 Hb) as Hn1. pose proof (wf_not_fresh m in2 b W2 Hb) as Hn2.
  set (m1 := with_block m b [0]).
  set (K := fun b' : Z => cl_isEqualKernel (dataptr in1) (start_at in1 x1 y1 (icc in1)) (irs in1)
     (dataptr in2) (start_at in2 x2 y2 (icc in2)) (irs in2) (w * icc in1) h (b', 0)).
  set (F := fun (s : list nat) b' m' =>
     do M <- cl_launch2D d s m' (w * icc in1) h (K b'); Ok (M, nth 0 (block_values M b') 0 =? 0)).
  apply (device_run_ext _ _ (fun s => with_array m (Some b) [0] (F s))).
  { intros s. unfold cl_IsEqual, valid_roi2, common_cc2. rewrite !(valid_roi_ok m) by assumption. cbn [andb].
    unfold F, K. rewrite C, Z.eqb_refl, <- C. rewrite (u32_small (w * icc in1)) by lia. reflexivity. }
  apply (with_array_run (cl_roomy d) m b _ F). unfold F. fold m1.
  set (c1 := fun i j => padd (origin in1 x1 y1 (icc in1)) (j * irs in1 + i)).
  set (c2 := fun i j => padd (origin in2 x2 y2 (icc in2)) (j * irs in2 + i)).
  assert (G1 : forall i j, get m1 (c1 i j) = get m (c1 i j)).
  { intros i j. unfold m1, c1. rewrite with_block_get, origin_fst. destruct (Z.eqb_spec (fst (ibase in1)) b); [contradiction|reflexivity]. }
  assert (G2 : forall i j, get m1 (c2 i j) = get m (c2 i j)).
  { intros i j. unfold m1, c2. rewrite with_block_get, origin_fst. destruct (Z.eqb_spec (fst (ibase in2)) b); [contradiction|reflexivity]. }
  assert (Hk : forall i j, 0 <= i < w * icc in1 -> 0 <= j < h -> K b i j =
    PLoad (c2 i j) (fun a => PLoad (c1 i j) (fun a' => if negb (a =? a') then PAtomic (b, 0) (fun v => u32 (v + 1)) PDone else PDone))).
  { intros i j Hi Hj. unfold K, cl_isEqualKernel. rewrite in_range_in by lia.
    rewrite (at_cl_ok m in1 x1 y1 w h), (at_cl_ok m in2 x2 y2 w h) by (auto; rewrite <- ?C; lia). reflexivity. }
  assert (Lb : len m1 b = 1). { unfold m1. rewrite with_block_len, Z.eqb_refl. reflexivity. }
  apply device_run_bind. apply cl_launch2D_run; [assumption|lia|lia| | | ].
  - intros i j _ _ H. apply in_range_out, H.
  - intros i j Hi Hj. rewrite Hk by assumption. cbn [sound].
    assert (No : forall q, others (w * icc in1) h m1 (K b) i j q -> fst q = b).
    { intros q (x' & y' & Hx' & Hy' & _ & E). rewrite Hk in E by assumption. cbn [events] in E.
      destruct (negb _) in E; [|destruct E]. destruct E as [<-|[]]. reflexivity. }
    split; [apply (cell_inb m1 in2 x2 y2 w h); auto; [apply wf_with_block; assumption|lia]|].
    split; [intros E; apply No in E; exact (Hn2 E)|].
    split; [apply (cell_inb m1 in1 x1 y1 w h); auto; apply wf_with_block; assumption|].
    split; [intros E; apply No in E; exact (Hn1 E)|].
    destruct (negb _); [|exact I].
    split; [|exact I]. apply inb_iff. cbn [fst snd]. lia.
  - intros es HP. cbn [fst snd].
    set (P := fun c : Z * Z => negb (get m (c2 (fst c) (snd c)) =? get m (c1 (fst c) (snd c)))).
    assert (HP' : Permutation es (map (fun c : Z * Z => ((b, 0), fun v => u32 (v + 1))) (filter P (pairs (w * icc in1) h)))).
    { rewrite HP. unfold all_events. rewrite <- flat_map_filter.
      erewrite (flat_map_pairs_ext _ _ _ (fun c => if P c then [((b, 0), fun v => u32 (v + 1))] else [])); [reflexivity|].
      intros i j Hi Hj. cbn [fst snd]. rewrite Hk by assumption. cbn [events]. rewrite G1, G2. unfold P. cbn [fst snd].
      destruct (negb _); reflexivity. }
    apply Permutation_map_inv in HP' as (cs & -> & HC).
    pose proof (apply_all_len (map (fun c : Z * Z => ((b, 0), fun v => u32 (v + 1))) cs) m1) as HL.
    assert (G0 : get m1 (b, 0) = 0). { unfold m1. rewrite with_block_get. cbn [fst snd]. rewrite Z.eqb_refl. reflexivity. }
    split; [|split].
    + intros p Hp. rewrite apply_all_untouched.
      * unfold m1. rewrite with_block_get. destruct (Z.eqb_spec (fst p) b); [contradiction|reflexivity].
      * intros e He E. apply in_map_iff in He as (c & <- & _). cbn [fst] in E. apply Hp. rewrite <- E. reflexivity.
    + intros b' Hb'. rewrite HL. unfold m1. rewrite with_block_len. destruct (Z.eqb_spec b' b); [contradiction|reflexivity].
    + intros M HM. split; [exact HM|].
      change 0%nat with (Z.to_nat 0). rewrite block_values_nth by (rewrite HL, Lb; lia).
      rewrite (apply_sums (fun _ : Z * Z => (b, 0)) (fun _ => 1)) by (rewrite G0; unfold W32; lia).
      rewrite G0, Z.add_0_l, ptr_eqb_refl, lsum_const1.
      assert (Sz : w * icc in1 * h < W32).
      { pose proof (wf_size _ _ W1). pose proof (wf_rs _ _ W1). destruct R1.
        assert (w * icc in1 <= irs in1) by (eapply Z.le_trans; [apply (Z.mul_le_mono_nonneg_r w (iw in1)); lia|assumption]).
        assert (w * icc in1 * h <= irs in1 * ih in1) by (apply Z.mul_le_mono_nonneg; lia). lia. }
      rewrite u32_small.
      2:{ split; [lia|]. rewrite <- (Permutation_length HC). pose proof (filter_len P (pairs (w * icc in1) h)) as HF.
          unfold pairs in HF. rewrite prod_length in HF. unfold zrange in HF. rewrite !map_length, !seq_length in HF.
          apply Nat2Z.inj_le in HF. rewrite Nat2Z.inj_mul, !Z2Nat.id in HF by lia. unfold pairs, zrange. lia. }
      assert (Ef : cs = [] <-> forall i j, 0 <= i < w * icc in1 -> 0 <= j < h -> get m (c1 i j) = get m (c2 i j)).
      { split.
        - intros -> i j Hi Hj. apply Permutation_sym, Permutation_nil in HC.
          assert (HN : ~ In (i, j) (filter P (pairs (w * icc in1) h))) by (rewrite HC; auto).
          rewrite filter_In, pairs_In in HN. unfold P in HN. cbn [fst snd] in HN.
          destruct (Z.eqb_spec (get m (c2 i j)) (get m (c1 i j))); [congruence|]. exfalso. apply HN. auto.
        - intros H. destruct cs as [|[i j] cs]; [reflexivity|exfalso].
          assert (Hc : In (i, j) (filter P (pairs (w * icc in1) h))) by (apply (Permutation_in _ (Permutation_sym HC)); left; reflexivity).
          rewrite filter_In, pairs_In in Hc. destruct Hc as [[Hi Hj] Hp]. unfold P in Hp. cbn [fst snd] in Hp.
          rewrite (H i j Hi Hj), Z.eqb_refl in Hp. discriminate. }
      transitivity (cs = []); [rewrite Z.eqb_eq; destruct cs; cbn [length]; [tauto|split; [lia|discriminate]]|]. rewrite Ef. split.
      * intros H i j c (Hi & Hj & Hc). unfold pixel. rewrite !px_origin, <- C. specialize (H (i * icc in1 + c) j).
        unfold c1, c2 in H. rewrite <- C in H. apply H; nia.
      * intros H i j Hi Hj. destruct (split_index (icc in1) i w) as (A & B & D); try lia.
        specialize (H (i / icc in1) j (i mod icc in1)). unfold pixel in H. rewrite !px_origin, <- C, <- D in H.
        unfold c1, c2. rewrite <- C. apply H. unfold inside. lia.
Qed.

(** ** LookupTable: the input region is at (yi, xi) *)
Lemma cl_Lookup_run table d m inp xi yi out xo yo w h b : cl_ok d -> roi_in inp xi yi w h ->
  area m inp yi xi w h -> area m out xo yo w h -> icc inp = icc out -> bytes m inp -> length table = 256%nat ->
  no_hazard out xo yo inp yi xi w h -> len m b = 0 ->
  device_run (cl_roomy d) m (fun s => cl_LookupTable table d (Some b) s m inp xi yi out xo yo w h)
    (fun r => writes (@Ok mem mem (fst r)) m out xo yo w h
       (fun i j c => nth (Z.to_nat (pixel m inp (yi + i) (xi + j) c)) table 0)).
Proof.
  intros Hd R0 [W1 R1] [Wo Ro] C B L N Hb. pose proof (wf_cc_pos _ _ Wo) as Hcc.
  pose proof (wf_not_fresh m inp b W1 Hb) as Hn1. pose proof (wf_not_fresh m out b Wo Hb) as Hno.
  destruct (area_small m out xo yo w h (conj Wo Ro)) as (SW & Sw & Sh).
  set (m1 := with_block m b table).
  set (K := fun b' : Z => cl_lookupKernel (dataptr inp) (start_at inp yi xi (icc inp)) (irs inp)
     (dataptr out) (start_at out xo yo (icc out)) (irs out) (w * icc out) h (b', 0)).
  set (F := fun (s : list nat) b' m' => do M <- cl_launch2D d s m' (w * icc out) h (K b'); Ok (M, tt)).
  apply (device_run_ext _ _ (fun s => with_array m (Some b) table (F s))).
  { intros s. unfold cl_LookupTable, valid_roi2, common_cc2. rewrite !(valid_roi_ok m) by assumption. cbn [andb].
    rewrite L. change (Z.of_nat 256 =? 256) with true. cbv iota. unfold F, K. rewrite C, Z.eqb_refl. rewrite (u32_small (w * icc out)) by lia.
    reflexivity. }
  apply (with_array_writes (cl_roomy d) m b table F); [assumption|assumption|]. unfold F. fold m1.
  assert (W1' : wf m1 inp) by (apply wf_with_block; assumption). assert (Wo' : wf m1 out) by (apply wf_with_block; assumption).
  set (c1 := fun i j => padd (origin inp yi xi (icc inp)) (j * irs inp + i)).
  assert (G1 : forall i j, get m1 (c1 i j) = get m (c1 i j)).
  { intros i j. unfold m1, c1. rewrite with_block_get, origin_fst. destruct (Z.eqb_spec (fst (ibase inp)) b); [contradiction|reflexivity]. }
  assert (B1 : forall i j, 0 <= i < w * icc out -> 0 <= j < h -> 0 <= get m (c1 i j) < 256).
  { intros i j Hi Hj. destruct (split_index (icc out) i w) as (A1 & A2 & A3); try lia.
    pose proof (B (yi + i / icc out) (xi + j) (i mod icc out)) as Bp. unfold pixel in Bp. rewrite px_origin, C, <- A3 in Bp.
    unfold c1. rewrite C. destruct R1. apply Bp; lia. }
  assert (Hk : forall i j, 0 <= i < w * icc out -> 0 <= j < h -> K b i j =
    PLoad (c1 i j) (fun a => PLoad (padd (b, 0) a) (fun v => PStore (padd (origin out xo yo (icc out)) (j * irs out + i)) v PDone))).
  { intros i j Hi Hj. unfold K, cl_lookupKernel. rewrite in_range_in by lia.
    rewrite (at_cl_ok m inp yi xi w h), (at_cl_ok m out xo yo w h) by (auto; rewrite ?C; lia). reflexivity. }
  apply (device_run_bind _ _ _ (fun M => (M, tt))). cbn [fst].
  assert (Gt : forall i j, 0 <= i < w * icc out -> 0 <= j < h ->
    get m1 (padd (b, 0) (get m (c1 i j))) = nth (Z.to_nat (get m (c1 i j))) table 0).
  { intros i j Hi Hj. unfold m1. rewrite with_block_get. cbn [padd fst snd]. rewrite Z.eqb_refl. reflexivity. }
  eapply device_run_weak; [intros M HM; eapply writes_ext; [exact HM|]|
    apply (cl_store_launch d m1 out xo yo w h (K b) (fun j i => nth (Z.to_nat (get m (c1 i j))) table 0));
      [assumption|split; assumption| | |]].
  - intros i j c Hi. cbv beta. unfold pixel, c1. rewrite px_origin, C. reflexivity.
  - intros i j H. apply in_range_out, H.
  - intros i j Hi Hj. rewrite Hk by assumption. cbn [events]. rewrite G1, Gt by assumption. reflexivity.
  - intros i j Hi Hj. rewrite Hk by assumption. cbn [sound]. rewrite G1.
    split; [apply (cell_inb m1 inp yi xi w h); auto; lia|]. split.
    { intros (x' & y' & Hx' & Hy' & Hne & E). apply Hne.
      symmetry in E. apply (hazard_samples out xo yo inp yi xi w h) in E as [-> ->]; auto; lia. }
    split; [apply inb_iff; cbn [padd fst snd]; unfold m1; rewrite with_block_len, Z.eqb_refl, L; pose proof (B1 i j Hi Hj); lia|].
    split. { intros (x' & y' & Hx' & Hy' & Hne & E). apply (f_equal fst) in E. rewrite origin_fst in E. cbn in E. congruence. }
    split; [apply (cell_inb m1 out xo yo w h); auto; lia|]. exact I.
Qed.

(** ** SetPixel: one byte, at (x + y) in row (x + y) *)
Lemma cl_SetPixel_run d m im x y v : cl_ok d -> wf m im -> 0 <= x < iw im -> 0 <= y < ih im ->
  (x + y) * irs im + (x + y) < ih im * irs im ->
  device_run (cl_roomy d) m (fun s => cl_SetPixel OnePixel d s m im x y v)
    (fun M => get M (byte_at im (x + y) (x + y)) = v /\
       (forall p, p <> byte_at im (x + y) (x + y) -> get M p = get m p) /\ (forall b, len M b = len m b)).
Proof.
  intros Hd W Hx Hy Hin.
  pose proof (wf_rs_pos _ _ W). pose proof (wf_size _ _ W). pose proof (wf_lo _ _ W). pose proof (wf_hi _ _ W).
  set (q := byte_at im (x + y) (x + y)).
  assert (I : inb m q = true). { apply inb_iff. unfold q, byte_at. cbn [fst snd]. nia. }
  set (k := cl_setPixelKernel (dataptr im) (swapped_at im x y 1) (irs im) (iw im) (ih im) x y v).
  assert (Ek : forall t, k t = PStore q v PDone).
  { intros t. unfold k, cl_setPixelKernel. rewrite in_range_in by lia. unfold swapped_at.
    rewrite (dataptr_ibase m) by assumption. rewrite Z.mul_1_r.
    rewrite (u32_small (x * irs im)), (u32_small (y * irs im)), (u32_small y) by nia.
    rewrite (u32_small (x * irs im + y)) by nia. rewrite (u32_small (x * irs im + y + y * irs im)) by nia.
    rewrite u32_small by nia. unfold q, byte_at, padd. do 2 f_equal. ring. }
  apply (device_run_ext _ _ (fun s => cl_launch1D d s m 1 k)).
  { intros s. unfold cl_SetPixel. rewrite (valid_image_ok m) by assumption.
    destruct (Z.leb_spec (iw im) x); [lia|]. destruct (Z.leb_spec (ih im) y); [lia|]. reflexivity. }
  apply cl_launch1D_run; [assumption|lia| |].
  - intros t _. rewrite Ek. cbn [sound]. split; [exact I|exact Logic.I].
  - intros t es Ht HP.
    assert (Hi : forall e, In e es -> e = (q, fun _ => v)).
    { intros e He. apply (Permutation_in _ HP) in He. apply in_flat_map in He as (u & _ & He). rewrite Ek in He. destruct He as [<-|[]]. reflexivity. }
    split; [|split].
    + apply apply_const.
      * exists (q, fun _ => v). split; [|reflexivity]. apply (Permutation_in _ (Permutation_sym HP)).
        apply in_flat_map. exists 0. split; [apply zrange_In; lia|]. rewrite Ek. left. reflexivity.
      * intros e He _ a. rewrite (Hi e He). reflexivity.
    + intros p Hp. apply apply_all_untouched. intros e He. rewrite (Hi e He). cbn [fst]. congruence.
    + intros b. apply apply_all_len.
Qed.

(** ** memorySet *)
Lemma cl_memset_run d m p v n : cl_ok d -> 0 < n < W32 -> 0 <= snd p -> snd p + n <= len m (fst p) ->
  device_run (cl_roomy d) m (fun s => cl_memorySet d s m p v 0 n)
    (fun M => (forall o, 0 <= o < n -> get M (padd p o) = v) /\
       (forall q, (forall o, 0 <= o < n -> q <> padd p o) -> get M q = get m q) /\ (forall b, len M b = len m b)).
Proof.
  intros Hd Hn Hp Hl. assert (P : W32 < 2 ^ 62) by (vm_compute; reflexivity).
  set (k := cl_memsetKernel p (u32 0) (u32 n) v).
  assert (Ek : forall t, 0 <= t < n -> k t = PStore (padd p t) v PDone).
  { intros t Ht. unfold k, cl_memsetKernel. rewrite (u32_small n) by lia. destruct (Z.ltb_spec t n); [|lia].
    change (u32 0) with 0. rewrite Z.add_0_l, u64_small; [reflexivity|]. unfold W32 in Hn. rewrite W64_val. lia. }
  assert (Ek' : forall t, n <= t -> k t = PDone).
  { intros t Ht. unfold k, cl_memsetKernel. rewrite (u32_small n) by lia. destruct (Z.ltb_spec t n); [lia|reflexivity]. }
  apply (device_run_ext _ _ (fun s => cl_launch1D d s m n k)); [reflexivity|].
  apply cl_launch1D_run; [assumption|lia| |].
  - intros t Ht. destruct (Z_lt_le_dec t n); [|rewrite Ek' by assumption; exact I].
    rewrite Ek by lia. cbn [sound]. split; [|exact I]. apply inb_iff. cbn [padd fst snd]. lia.
  - intros t es Ht HP.
    assert (Hi : forall e, In e es -> exists o, 0 <= o < n /\ e = (padd p o, fun _ => v)).
    { intros e He. apply (Permutation_in _ HP) in He. apply in_flat_map in He as (u & Hu & He). apply zrange_In in Hu.
      destruct (Z_lt_le_dec u n).
      - rewrite Ek in He by lia. destruct He as [<-|[]]. exists u. split; [lia|reflexivity].
      - rewrite Ek' in He by lia. destruct He. }
    split; [|split].
    + intros o Ho. apply apply_const.
      * exists (padd p o, fun _ => v). split; [|reflexivity]. apply (Permutation_in _ (Permutation_sym HP)).
        apply in_flat_map. exists o. split; [apply zrange_In; lia|]. rewrite Ek by lia. left. reflexivity.
      * intros e He _ a. destruct (Hi e He) as (o' & _ & ->). reflexivity.
    + intros q Hq. apply apply_all_untouched. intros e He. destruct (Hi e He) as (o & Ho & ->). cbn [fst].
      intros E. apply (Hq o Ho). symmetry. exact E.
    + intros b. apply apply_all_len.
Qed.

Lemma cl_FillImage_run d m im v : cl_ok d -> wf m im ->
  device_run (cl_roomy d) m (fun s => cl_FillImage d s m im v)
    (fun M => (forall o, 0 <= o < ih im * irs im -> get M (padd (ibase im) o) = v) /\
       (forall q, (forall o, 0 <= o < ih im * irs im -> q <> padd (ibase im) o) -> get M q = get m q) /\
       (forall b, len M b = len m b)).
Proof.
  intros Hd W. pose proof (wf_size _ _ W). pose proof (wf_h _ _ W). pose proof (wf_rs_pos _ _ W).
  apply (device_run_ext _ _ (fun s => cl_memorySet d s m (ibase im) v 0 (ih im * irs im))).
  { intros s. unfold cl_FillImage. rewrite (wf_not_empty m), (dataptr_ibase m) by assumption.
    rewrite u64_small; [reflexivity|]. unfold W32 in *. rewrite W64_val. nia. }
  apply cl_memset_run; [assumption|nia|apply (wf_lo _ _ W)|apply (wf_hi _ _ W)].
Qed.

(** ** Copies between host and device *)
Lemma ConvertToOpenCL_run m inp out : wf m inp -> wf m out -> iw inp = iw out -> ih inp = ih out -> icc inp = icc out ->
  unpadded inp -> unpadded out ->
  disjoint out 0 0 (iw out) (ih out) inp 0 0 (iw out) (ih out) ->
  writes (ConvertToOpenCL m inp out) m out 0 0 (iw out) (ih out) (fun i j c => pixel m inp i j c) /\
  writes (ConvertFromOpenCL m inp out) m out 0 0 (iw out) (ih out) (fun i j c => pixel m inp i j c).
Proof.
  intros W1 Wo Ew Eh Ec U1 Uo D. pose proof (memcpy1D_writes m inp out W1 Wo Ew Eh Ec U1 Uo D) as H.
  pose proof (wf_size _ _ W1) as S1. pose proof (wf_h _ _ W1). pose proof (wf_rs_pos _ _ W1). pose proof (wf_rs_pos _ _ Wo).
  unfold unpadded in *.
  assert (E64 : u64 (irs inp * ih inp) = irs inp * ih inp) by (apply u64_small; unfold W32 in *; rewrite W64_val; nia).
  assert (E32 : u32 (irs inp * ih inp) = irs inp * ih inp) by (apply u32_small; nia).
  rewrite E32 in H.
  assert (R1 : irs inp = u32 (iw inp * icc inp)) by (rewrite <- U1, u32_small; [reflexivity|nia]).
  assert (Ro : irs out = u32 (iw out * icc out)).
  { rewrite <- Uo, u32_small; [reflexivity|]. pose proof (wf_size _ _ Wo). pose proof (wf_h _ _ Wo). nia. }
  assert (Er : irs inp = irs out) by (rewrite U1, Uo, Ew, Ec; reflexivity).
  split.
  - unfold ConvertToOpenCL. rewrite !(valid_image_ok m), Ew, Eh, Ec, !Z.eqb_refl by assumption. cbn [andb].
    rewrite Ew, Ec in R1. rewrite <- R1, Z.eqb_refl, orb_true_r. rewrite Eh in E64, H. rewrite E64.
    destruct (Z.leb_spec (irs inp * ih out) (ih out * irs out)); [exact H|]. rewrite Er in *. lia.
  - unfold ConvertFromOpenCL. unfold valid_pair. 
    assert (Ev : valid_pair inp out = true).
    { unfold valid_pair. rewrite ?(wf_not_empty m inp), ?(wf_not_empty m out), ?(color_ok m inp), ?(color_ok m out) by assumption.
      rewrite ?Ew, ?Eh, ?Ec, ?Z.eqb_refl. reflexivity. }
    unfold valid_pair in Ev. rewrite Ev, Ew, Eh, Ec, !Z.eqb_refl. cbn [andb].
    rewrite <- Ro, Z.eqb_refl, orb_true_r. rewrite Eh in E64, H. rewrite E64. exact H.
Qed.
