(** Proofs about Cuda.v, continued: functions with a device array, pixels. *)
From Coq Require Import ZArith List Bool Lia Permutation.
From Verif Require Import Base Image Spec BaseProofs ImgFun ImgLemmas ImgProofs SafeProofs ReduceProofs FuncPoolProofs
  Cuda CudaProofs CudaRuns.
Import ListNotations.
Open Scope Z_scope.

Ltac Zify.zify_post_hook ::= idtac.

Lemma zsum_pick n v f : 0 <= v < n -> zsum n (fun k => if v =? k then f k else 0) = f v.
Proof.
  intros Hv. assert (Hn : 0 <= n) by lia. revert Hv. pattern n. apply natlike_ind; auto; [lia|].
  intros k Hk IH Hv. unfold Z.succ. rewrite zsum_S by lia. destruct (Z.eqb_spec v k) as [->|Hne].
  - rewrite (zsum_ext k _ (fun _ => 0)); [rewrite zsum_const by lia; lia|].
    intros t Ht. destruct (Z.eqb_spec k t); [lia|reflexivity].
  - rewrite IH by lia. lia.
Qed.
Lemma zsum_if_const n (b : bool) f : 0 <= n -> zsum n (fun k => if b then f k else 0) = if b then zsum n f else 0.
Proof. intros Hn. destruct b; [reflexivity|]. rewrite zsum_const by lia. lia. Qed.

Lemma cuda_Histogram_run d m im x y w h b : device_ok d -> dStreams d = false ->
  area m im x y w h -> icc im = 1 -> bytes m im -> len m b = 0 ->
  device_run (comfortable d w h) m (fun s => cuda_Histogram d (Some b) s m im x y w h)
    (fun r => same_mem m (fst r) /\ length (snd r) = 256%nat /\
       forall v, 0 <= v < 256 -> nth (Z.to_nat v) (snd r) 0 =
         zsum h (fun j => zcount w (fun i => pixel m im (x + i) (y + j) 0 =? v))).
Proof.
  intros Hd Hst A C B Hb. pose proof A as [W R].
  set (k := histogramKernel (origin im x y (icc im)) (irs im) w h (b, 0)).
  apply (device_run_ext _ _ (fun s => with_array m (Some b) (repeat 0 (Z.to_nat 256)) (fun b' m' =>
     do M <- launch2D_get d s m' w h (histogramKernel (origin im x y (icc im)) (irs im) w h (b', 0)); Ok (M, block_values M b')))).
  { intros s. unfold cuda_Histogram. rewrite (valid_roi_ok m), is_gray_true by assumption.
    rewrite (row_ptr_origin m im x y w h) by (assumption || lia). rewrite C. reflexivity. }
  apply (with_array_run (comfortable d w h) m b _ (fun s b' m' =>
     do M <- launch2D_get d s m' w h (histogramKernel (origin im x y (icc im)) (irs im) w h (b', 0)); Ok (M, block_values M b'))).
  assert (Pe : forall i j, pixel m im (x + i) (y + j) 0 = get m (padd (origin im x y (icc im)) (j * irs im + i))).
  { intros i j. unfold pixel. rewrite px_origin, C. rewrite Z.mul_1_r, Z.add_0_r. reflexivity. }
  assert (Pb : forall i j, 0 <= i < w -> 0 <= j < h -> 0 <= get m (padd (origin im x y (icc im)) (j * irs im + i)) < 256).
  { intros i j Hi Hj. rewrite <- Pe. destruct R. apply B; lia. }
  eapply device_run_weak; [|apply (sum_launch d m im x y w h b 256 w k (fun _ _ a => a) (fun _ => 1)); auto; try lia].
  - intros r (H1 & H2 & H3). split; [exact H1|]. split; [exact H2|]. intros M HM.
    destruct (H3 M HM) as (G1 & G2 & G3). split; [exact G1|]. split; [exact G2|].
    intros v Hv. rewrite G3 by assumption.
    rewrite (zsum_ext h _ (fun j => zcount w (fun i => pixel m im (x + i) (y + j) 0 =? v))).
    + apply Z.mod_small. destruct (area_small m im x y w h A) as (_ & Sw & Sh).
      pose proof (wf_size _ _ W). pose proof (wf_rs _ _ W). pose proof (wf_w _ _ W). pose proof (wf_h _ _ W).
      assert (Hb2 : h * 0 <= zsum h (fun j => zcount w (fun i => pixel m im (x + i) (y + j) 0 =? v)) <= h * w).
      { apply zsum_bound; [lia|]. intros j Hj. unfold zcount.
        assert (w * 0 <= zsum w (fun i => if pixel m im (x + i) (y + j) 0 =? v then 1 else 0) <= w * 1); [|lia].
        apply zsum_bound; [lia|]. intros i Hi. destruct (_ =? _); lia. }
      destruct R. assert (h * w <= ih im * irs im) by nia. lia.
    + intros j Hj. unfold zcount. apply zsum_ext. intros i Hi. rewrite Pe, Z.eqb_sym. reflexivity.
  - destruct R. rewrite C. lia.
  - intros a c H. apply in_range_out, H.
  - intros a c Ha Hc. unfold k, histogramKernel. rewrite in_range_in by lia. rewrite (at_idx_ok m im x y w h) by (auto; lia). reflexivity.
Qed.

Lemma zsum_groups' f k : 0 <= k -> forall n, 0 <= n ->
  zsum (n * k) f = zsum n (fun i => zsum k (fun c => f (i * k + c))).
Proof.
  intros Hk n Hn. pattern n. apply natlike_ind; auto.
  intros t Ht IH. unfold Z.succ. rewrite zsum_S by lia. rewrite <- IH.
  replace ((t + 1) * k) with (t * k + k) by lia.
  clear IH. pattern k at 2 4. apply natlike_ind; auto.
  - rewrite Z.add_0_r, zsum_0. lia.
  - intros u Hu IH. unfold Z.succ. rewrite Z.add_assoc, zsum_S by nia. rewrite IH, zsum_S by lia. lia.
Qed.

Lemma cuda_Projection_run d m im x y w h b hor : device_ok d -> dStreams d = false ->
  area m im x y w h -> len m b = 0 ->
  device_run (comfortable d (w * icc im) h) m (fun s => cuda_ProjectionProfile d (Some b) s m im x y w h hor)
    (fun r => same_mem m (fst r) /\
       if hor : bool
       then length (snd r) = Z.to_nat (w * icc im) /\
            forall i c, 0 <= i < w -> 0 <= c < icc im ->
              nth (Z.to_nat (i * icc im + c)) (snd r) 0 = zsum h (fun j => pixel m im (x + i) (y + j) c) mod W32
       else length (snd r) = Z.to_nat h /\
            forall j, 0 <= j < h -> nth (Z.to_nat j) (snd r) 0 =
              zsum w (fun i => zsum (icc im) (fun c => pixel m im (x + i) (y + j) c)) mod W32).
Proof.
  intros Hd Hst A Hb. pose proof A as [W R]. pose proof (wf_cc_pos _ _ W) as Hcc.
  destruct (area_small m im x y w h A) as (SW & Sw & Sh).
  set (n := if hor then w * icc im else h).
  set (k := projectionKernel hor (origin im x y (icc im)) (irs im) (w * icc im) h (b, 0)).
  set (F := fun (s : list nat) b' m' =>
     do M <- launch2D_get d s m' (w * icc im) h (projectionKernel hor (origin im x y (icc im)) (irs im) (w * icc im) h (b', 0)); Ok (M, block_values M b')).
  apply (device_run_ext _ _ (fun s => with_array m (Some b) (repeat 0 (Z.to_nat n)) (F s))).
  { intros s. unfold cuda_ProjectionProfile. rewrite (valid_roi_ok m) by assumption.
    rewrite (row_ptr_origin m im x y w h) by (assumption || lia). rewrite (u32_small (w * icc im)) by lia. reflexivity. }
  apply (with_array_run (comfortable d (w * icc im) h) m b _ F). unfold F.
  assert (Pe : forall i j c, get m (padd (origin im x y (icc im)) (j * irs im + (i * icc im + c))) = pixel m im (x + i) (y + j) c).
  { intros i j c. unfold pixel. rewrite px_origin. reflexivity. }
  eapply device_run_weak; [|apply (sum_launch d m im x y w h b n (w * icc im) k (fun x y _ => if hor then x else y) (fun a => a)); auto; try lia].
  - intros r (H1 & H2 & H3). split; [exact H1|]. split; [exact H2|]. intros M HM.
    destruct (H3 M HM) as (G1 & G2 & G3). split; [exact G1|]. unfold n in *. clearbody k. destruct hor.
    + split; [exact G2|]. intros i c Hi Hc. rewrite G3 by nia. f_equal. apply zsum_ext. intros j Hj.
      rewrite zsum_pick by nia. apply Pe.
    + split; [exact G2|]. intros j Hj. rewrite G3 by assumption. f_equal.
      rewrite (zsum_ext h _ (fun j' => if j =? j' then zsum (w * icc im) (fun i => get m (padd (origin im x y (icc im)) (j' * irs im + i))) else 0)).
      * rewrite (zsum_pick h j (fun j' => zsum (w * icc im) (fun i => get m (padd (origin im x y (icc im)) (j' * irs im + i))))) by lia.
        rewrite zsum_groups' by lia. apply zsum_ext. intros i Hi. apply zsum_ext. intros c Hc. apply Pe.
      * intros j' Hj'. apply zsum_if_const. lia.
  - unfold n. destruct hor; lia.
  - intros a c H. apply in_range_out, H.
  - intros a c Ha Hc. unfold k, projectionKernel. rewrite in_range_in by lia. rewrite (at_ptr_ok m im x y w h) by (auto; lia). reflexivity.
  - intros a c Ha Hc. unfold n. destruct hor; lia.
Qed.

(** ** IsEqual *)
Lemma apply_ands {A} (q : ptr) (P : A -> bool) cs : forall m, get m q = 0 \/ get m q = 1 ->
  get (apply_all m (map (fun c => (q, fun v => Z.land v (if P c then 1 else 0))) cs)) q
  = if (get m q =? 1) && forallb P cs then 1 else 0.
Proof.
  induction cs as [|c cs IH]; intros m Hm; cbn [map apply_all fold_left forallb].
  - destruct Hm as [-> | ->]; reflexivity.
  - match goal with |- context [fold_left apply1 ?l ?m0] => fold (apply_all m0 l) end.
    assert (E : get (apply1 m (q, fun v => Z.land v (if P c then 1 else 0))) q = if (get m q =? 1) && P c then 1 else 0).
    { unfold apply1. cbn [fst snd]. rewrite get_upd, ptr_eqb_refl. destruct Hm as [-> | ->], (P c); reflexivity. }
    rewrite IH; rewrite E; destruct Hm as [-> | ->], (P c); cbn; auto.
Qed.

Lemma cuda_IsEqual_run d m in1 x1 y1 in2 x2 y2 w h b : device_ok d -> dStreams d = false ->
  area m in1 x1 y1 w h -> area m in2 x2 y2 w h -> icc in1 = icc in2 -> len m b = 0 ->
  device_run (comfortable d (w * icc in1) h) m (fun s => cuda_IsEqual d (Some b) s m in1 x1 y1 in2 x2 y2 w h)
    (fun r => same_mem m (fst r) /\
       (snd r = true <-> forall i j c, inside w h (icc in1) i j c ->
          pixel m in1 (x1 + i) (y1 + j) c = pixel m in2 (x2 + i) (y2 + j) c)).
Proof.
  intros Hd Hst A1 A2 C Hb. pose proof A1 as [W1 R1]. pose proof A2 as [W2 R2]. pose proof (wf_cc_pos _ _ W1) as Hcc.
  destruct (area_small m in1 x1 y1 w h A1) as (SW & Sw & Sh).
  pose proof (wf_not_fresh m in1 b W1 Hb) as Hn1. pose proof (wf_not_fresh m in2 b W2 Hb) as Hn2.
  set (m1 := with_block m b [1]).
  set (K := fun b' : Z => isEqualKernel (origin in1 x1 y1 (icc in1)) (irs in1) (origin in2 x2 y2 (icc in2)) (irs in2) (w * icc in1) h (b', 0)).
  set (F := fun (s : list nat) b' m' =>
     do M <- launch2D_get d s m' (w * icc in1) h (K b'); Ok (M, negb (nth 0 (block_values M b') 0 =? 0))).
  apply (device_run_ext _ _ (fun s => with_array m (Some b) [1] (F s))).
  { intros s. unfold cuda_IsEqual, valid_roi2, common_cc2. rewrite !(valid_roi_ok m) by assumption. cbn [andb].
    rewrite C, Z.eqb_refl, <- C. rewrite (u32_small (w * icc in1)) by lia.
    rewrite (row_ptr_origin m in1 x1 y1 w h), (row_ptr_origin m in2 x2 y2 w h) by (assumption || lia).
    unfold F, K. rewrite <- C. reflexivity. }
  apply (with_array_run (comfortable d (w * icc in1) h) m b _ F). unfold F. fold m1.
  set (c1 := fun i j => padd (origin in1 x1 y1 (icc in1)) (j * irs in1 + i)).
  set (c2 := fun i j => padd (origin in2 x2 y2 (icc in2)) (j * irs in2 + i)).
  assert (G1 : forall i j, get m1 (c1 i j) = get m (c1 i j)).
  { intros i j. unfold m1, c1. rewrite with_block_get, origin_fst. destruct (Z.eqb_spec (fst (ibase in1)) b); [contradiction|reflexivity]. }
  assert (G2 : forall i j, get m1 (c2 i j) = get m (c2 i j)).
  { intros i j. unfold m1, c2. rewrite with_block_get, origin_fst. destruct (Z.eqb_spec (fst (ibase in2)) b); [contradiction|reflexivity]. }
  assert (Hk : forall i j, 0 <= i < w * icc in1 -> 0 <= j < h -> K b i j =
    PLoad (c1 i j) (fun a => PLoad (c2 i j) (fun a' => PAtomic (b, 0) (fun v => Z.land v (if a =? a' then 1 else 0)) PDone))).
  { intros i j Hi Hj. unfold K, isEqualKernel. rewrite in_range_in by lia.
    rewrite (at_idx_ok m in1 x1 y1 w h), (at_idx_ok m in2 x2 y2 w h) by (auto; rewrite <- ?C; lia). reflexivity. }
  assert (Lb : len m1 b = 1). { unfold m1. rewrite with_block_len, Z.eqb_refl. reflexivity. }
  apply device_run_bind. apply launch2D_run; [assumption|lia|lia| | | |assumption].
  - intros i j _ _ H. apply in_range_out, H.
  - intros i j Hi Hj. rewrite Hk by assumption. cbn [sound].
    assert (No : forall q, others (w * icc in1) h m1 (K b) i j q -> fst q = b).
    { intros q (x' & y' & Hx' & Hy' & _ & E). rewrite Hk in E by assumption. destruct E as [<-|[]]. reflexivity. }
    split; [apply (cell_inb m1 in1 x1 y1 w h); auto; apply wf_with_block; assumption|].
    split; [intros E; apply No in E; exact (Hn1 E)|].
    split; [apply (cell_inb m1 in2 x2 y2 w h); auto; [apply wf_with_block; assumption|lia]|].
    split; [intros E; apply No in E; exact (Hn2 E)|].
    split; [|exact I]. apply inb_iff. cbn [fst snd]. lia.
  - intros es HP. cbn [fst snd].
    set (P := fun c : Z * Z => get m (c1 (fst c) (snd c)) =? get m (c2 (fst c) (snd c))).
    assert (HP' : Permutation es (map (fun c => ((b, 0), fun v => Z.land v (if P c then 1 else 0))) (pairs (w * icc in1) h))).
    { rewrite HP. unfold all_events. erewrite (flat_map_pairs_ext _ _ _ (fun c => [((b, 0), fun v => Z.land v (if P c then 1 else 0))])).
      - induction (pairs (w * icc in1) h) as [|c l IH]; cbn [flat_map map app]; auto.
      - intros i j Hi Hj. cbn [fst snd]. rewrite Hk by assumption. cbn [events]. rewrite G1, G2. reflexivity. }
    apply Permutation_map_inv in HP' as (cs & -> & HC).
    pose proof (apply_all_len (map (fun c => ((b, 0), fun v => Z.land v (if P c then 1 else 0))) cs) m1) as HL.
    assert (G0 : get m1 (b, 0) = 1). { unfold m1. rewrite with_block_get. cbn [fst snd]. rewrite Z.eqb_refl. reflexivity. }
    split; [|split].
    + intros p Hp. rewrite apply_all_untouched.
      * unfold m1. rewrite with_block_get. destruct (Z.eqb_spec (fst p) b); [contradiction|reflexivity].
      * intros e He E. apply in_map_iff in He as (c & <- & _). cbn [fst] in E. apply Hp. rewrite <- E. reflexivity.
    + intros b' Hb'. rewrite HL. unfold m1. rewrite with_block_len. destruct (Z.eqb_spec b' b); [contradiction|reflexivity].
    + intros M HM. split; [exact HM|].
      change 0%nat with (Z.to_nat 0). rewrite block_values_nth by (rewrite HL, Lb; lia).
      rewrite apply_ands by (right; exact G0). rewrite G0. cbn [Z.eqb Pos.eqb andb].
      assert (Ef : forallb P cs = true <-> forall i j, 0 <= i < w * icc in1 -> 0 <= j < h -> get m (c1 i j) = get m (c2 i j)).
      { rewrite forallb_forall. split.
        - intros H i j Hi Hj. apply Z.eqb_eq. apply (H (i, j)). apply (Permutation_in _ HC). apply pairs_In. auto.
        - intros H [i j] Hc. apply (Permutation_in _ (Permutation_sym HC)) in Hc. apply pairs_In in Hc as [Hi Hj].
          apply Z.eqb_eq. apply H; assumption. }
      transitivity (forallb P cs = true); [destruct (forallb P cs); cbn; intuition congruence|]. rewrite Ef. split.
      * intros H i j c (Hi & Hj & Hc). unfold pixel. rewrite !px_origin, <- C. specialize (H (i * icc in1 + c) j).
        unfold c1, c2 in H. rewrite <- C in H. apply H; nia.
      * intros H i j Hi Hj. destruct (split_index (icc in1) i w) as (A & B & D); try lia.
        specialize (H (i / icc in1) j (i mod icc in1)). unfold pixel in H. rewrite !px_origin, <- C, <- D in H.
        unfold c1, c2. rewrite <- C. apply H. unfold inside. lia.
Qed.

(** ** LookupTable *)
Lemma cuda_Lookup_run table d m inp xi yi out xo yo w h b : device_ok d ->
  area m inp xi yi w h -> area m out xo yo w h -> icc inp = icc out -> bytes m inp -> length table = 256%nat ->
  no_hazard out xo yo inp xi yi w h -> len m b = 0 ->
  device_run (comfortable d (w * icc out) h) m (fun s => cuda_LookupTable table d (Some b) s m inp xi yi out xo yo w h)
    (fun r => writes (@Ok mem mem (fst r)) m out xo yo w h
       (fun i j c => nth (Z.to_nat (pixel m inp (xi + i) (yi + j) c)) table 0)).
Proof.
  intros Hd [W1 R1] [Wo Ro] C B L N Hb. pose proof (wf_cc_pos _ _ Wo) as Hcc.
  pose proof (wf_not_fresh m inp b W1 Hb) as Hn1. pose proof (wf_not_fresh m out b Wo Hb) as Hno.
  destruct (area_small m out xo yo w h (conj Wo Ro)) as (SW & Sw & Sh).
  set (m1 := with_block m b table).
  set (K := fun b' : Z => lookupKernel (origin inp xi yi (icc inp)) (irs inp) (origin out xo yo (icc out)) (irs out) (w * icc out) h (b', 0)).
  set (F := fun (s : list nat) b' m' => do M <- launch2D d s m' (w * icc out) h (K b'); Ok (M, tt)).
  apply (device_run_ext _ _ (fun s => with_array m (Some b) table (F s))).
  { intros s. unfold cuda_LookupTable, valid_roi2, common_cc2. rewrite !(valid_roi_ok m) by assumption. cbn [andb].
    rewrite L. change (Z.of_nat 256 =? 256) with true. cbv iota. rewrite C, Z.eqb_refl. rewrite (u32_small (w * icc out)) by lia.
    rewrite (row_ptr_origin m inp xi yi w h), (row_ptr_origin m out xo yo w h) by (assumption || lia).
    unfold F, K. rewrite C. reflexivity. }
  apply (with_array_writes (comfortable d (w * icc out) h) m b table F); [assumption|assumption|]. unfold F. fold m1.
  assert (W1' : wf m1 inp) by (apply wf_with_block; assumption). assert (Wo' : wf m1 out) by (apply wf_with_block; assumption).
  set (c1 := fun i j => padd (origin inp xi yi (icc inp)) (j * irs inp + i)).
  assert (G1 : forall i j, get m1 (c1 i j) = get m (c1 i j)).
  { intros i j. unfold m1, c1. rewrite with_block_get, origin_fst. destruct (Z.eqb_spec (fst (ibase inp)) b); [contradiction|reflexivity]. }
  assert (B1 : forall i j, 0 <= i < w * icc out -> 0 <= j < h -> 0 <= get m (c1 i j) < 256).
  { intros i j Hi Hj. destruct (split_index (icc out) i w) as (A1 & A2 & A3); try lia.
    pose proof (B (xi + i / icc out) (yi + j) (i mod icc out)) as Bp. unfold pixel in Bp. rewrite px_origin, C, <- A3 in Bp.
    unfold c1. rewrite C. destruct R1. apply Bp; lia. }
  assert (Hk : forall i j, 0 <= i < w * icc out -> 0 <= j < h -> K b i j =
    PLoad (c1 i j) (fun a => PLoad (padd (b, 0) a) (fun v => PStore (padd (origin out xo yo (icc out)) (j * irs out + i)) v PDone))).
  { intros i j Hi Hj. unfold K, lookupKernel. rewrite in_range_in by lia.
    rewrite (at_idx_ok m inp xi yi w h), (at_idx_ok m out xo yo w h) by (auto; rewrite ?C; lia). reflexivity. }
  apply (device_run_bind _ _ _ (fun M => (M, tt))). cbn [fst].
  assert (Gt : forall i j, 0 <= i < w * icc out -> 0 <= j < h ->
    get m1 (padd (b, 0) (get m (c1 i j))) = nth (Z.to_nat (get m (c1 i j))) table 0).
  { intros i j Hi Hj. unfold m1. rewrite with_block_get. cbn [padd fst snd]. rewrite Z.eqb_refl. reflexivity. }
  eapply device_run_weak; [intros M HM; eapply writes_ext; [exact HM|]|
    apply (store_launch d m1 out xo yo w h (K b) (fun j i => nth (Z.to_nat (get m (c1 i j))) table 0));
      [assumption|split; assumption| | |]].
  - intros i j c Hi. cbv beta. unfold pixel, c1. rewrite px_origin, C. reflexivity.
  - intros i j H. apply in_range_out, H.
  - intros i j Hi Hj. rewrite Hk by assumption. cbn [events]. rewrite G1, Gt by assumption. reflexivity.
  - intros i j Hi Hj. rewrite Hk by assumption. cbn [sound]. rewrite G1.
    split; [apply (cell_inb m1 inp xi yi w h); auto; lia|]. split.
    { intros (x' & y' & Hx' & Hy' & Hne & E). apply Hne.
      symmetry in E. apply (hazard_samples out xo yo inp xi yi w h) in E as [-> ->]; auto; lia. }
    split; [apply inb_iff; cbn [padd fst snd]; unfold m1; rewrite with_block_len, Z.eqb_refl, L; pose proof (B1 i j Hi Hj); lia|].
    split. { intros (x' & y' & Hx' & Hy' & Hne & E). apply (f_equal fst) in E. rewrite origin_fst in E. cbn in E. congruence. }
    split; [apply (cell_inb m1 out xo yo w h); auto; lia|]. exact I.
Qed.

(** ** SetPixel *)
Lemma dataptr_ibase m im : wf m im -> dataptr im = ibase im.
Proof. intros H. unfold dataptr, ibase. destruct (idata im) eqn:E; auto. destruct (wf_data _ _ H E). Qed.
Lemma valid_image_ok m im : wf m im -> valid_image im = true.
Proof. intros H. unfold valid_image. rewrite (wf_not_empty m), (color_ok m) by assumption. reflexivity. Qed.

(** The byte written by the kernels: x is not multiplied by the number of channels. *)
Definition byte_at (im : image) (x y : Z) : ptr := (fst (ibase im), snd (ibase im) + y * irs im + x).
Lemma byte_at_ok m im x y : wf m im -> 0 <= x < iw im -> 0 <= y < ih im ->
  at_idx (dataptr im) (irs im) x y = byte_at im x y /\ inb m (byte_at im x y) = true.
Proof.
  intros W Hx Hy. pose proof (wf_cc_pos _ _ W). pose proof (wf_rs _ _ W). pose proof (wf_rs_pos _ _ W).
  pose proof (wf_size _ _ W). pose proof (wf_lo _ _ W). pose proof (wf_hi _ _ W).
  assert (x < irs im) by nia. assert (y * irs im + irs im <= ih im * irs im) by nia.
  rewrite (dataptr_ibase m) by assumption. unfold at_idx. rewrite (u32_small (y * irs im)) by nia. rewrite u32_small by nia. split.
  - unfold byte_at, padd. f_equal. lia.
  - apply inb_iff. unfold byte_at. cbn [fst snd]. nia.
Qed.

Lemma cuda_SetPixel_run d m im x y v : device_ok d -> wf m im -> 0 <= x < iw im -> 0 <= y < ih im ->
  device_run (roomy (dThreads d) (dx (dGrid d)) 1) m (fun s => cuda_SetPixel d s m im x y v)
    (fun M => get M (byte_at im x y) = v /\ (forall p, p <> byte_at im x y -> get M p = get m p) /\ (forall b, len M b = len m b)).
Proof.
  intros Hd W Hx Hy. destruct (byte_at_ok m im x y W Hx Hy) as [E I].
  set (k := setPixelKernel (dataptr im) (irs im) (iw im) (ih im) x y v).
  assert (Ek : forall t, k t = PStore (byte_at im x y) v PDone).
  { intros t. unfold k, setPixelKernel. rewrite in_range_in by lia. rewrite E. reflexivity. }
  apply (device_run_ext _ _ (fun s => launch1D d s m 1 k)).
  { intros s. unfold cuda_SetPixel. rewrite (valid_image_ok m) by assumption.
    destruct (Z.leb_spec (iw im) x); [lia|]. destruct (Z.leb_spec (ih im) y); [lia|]. reflexivity. }
  apply launch1D_run; [assumption|unfold W32; lia| |].
  - intros t _. rewrite Ek. cbn [sound]. split; [exact I|exact Logic.I].
  - intros t es Ht _ HP.
    assert (Hin : forall e, In e es -> e = (byte_at im x y, fun _ => v)).
    { intros e He. apply (Permutation_in _ HP) in He. apply in_flat_map in He as (u & _ & He). rewrite Ek in He. destruct He as [<-|[]]. reflexivity. }
    split; [|split].
    + apply apply_const.
      * exists (byte_at im x y, fun _ => v). split; [|reflexivity]. apply (Permutation_in _ (Permutation_sym HP)).
        apply in_flat_map. exists 0. split; [apply zrange_In; lia|]. rewrite Ek. left. reflexivity.
      * intros e He _ a. rewrite (Hin e He). reflexivity.
    + intros p Hp. apply apply_all_untouched. intros e He. rewrite (Hin e He). cbn [fst]. congruence.
    + intros b. apply apply_all_len.
Qed.

Lemma cuda_SetPixels_run d m im X Y v b1 b2 : device_ok d -> wf m im -> length X = length Y -> X <> [] ->
  Z.of_nat (length X) < W32 -> (forall x y, In (x, y) (combine X Y) -> 0 <= x < iw im /\ 0 <= y < ih im) ->
  len m b1 = 0 -> len m b2 = 0 -> b1 <> b2 ->
  device_run (roomy (dThreads d) (dx (dGrid d)) (Z.of_nat (length X))) m
    (fun s => cuda_SetPixels d (Some b1) (Some b2) s m im X Y v)
    (fun r => (forall x y, In (x, y) (combine X Y) -> get (fst r) (byte_at im x y) = u8 v) /\
       (forall p, (forall x y, In (x, y) (combine X Y) -> p <> byte_at im x y) -> get (fst r) p = get m p) /\
       (forall b, len (fst r) b = len m b)).
Proof.
  intros Hd W HL Hne Hn Hin Hb1 Hb2 Hb.
  pose proof (wf_not_fresh m im b1 W Hb1) as N1. pose proof (wf_not_fresh m im b2 W Hb2) as N2.
  set (n := Z.of_nat (length X)) in *. assert (Hn0 : 0 < n) by (unfold n; destruct X; [congruence|cbn [length]; lia]).
  set (m1 := with_block m b1 X). set (m2 := with_block m1 b2 Y).
  set (k := setPixelsKernel (dataptr im) (irs im) (iw im) (ih im) (b1, 0) (b2, 0) n v).
  assert (L1 : len m1 b2 = 0). { unfold m1. rewrite with_block_len. destruct (Z.eqb_spec b2 b1); [congruence|assumption]. }
  assert (W2 : wf m2 im) by (apply wf_with_block; [apply wf_with_block; assumption|exact L1]).
  assert (GX : forall t, 0 <= t < n -> get m2 (padd (b1, 0) t) = nth (Z.to_nat t) X 0).
  { intros t Ht. unfold m2, m1. rewrite !with_block_get. cbn [padd fst snd]. destruct (Z.eqb_spec b1 b2); [congruence|]. rewrite Z.eqb_refl. reflexivity. }
  assert (GY : forall t, 0 <= t < n -> get m2 (padd (b2, 0) t) = nth (Z.to_nat t) Y 0).
  { intros t Ht. unfold m2. rewrite with_block_get. cbn [padd fst snd]. rewrite Z.eqb_refl. reflexivity. }
  assert (Hxy : forall t, 0 <= t < n -> In (nth (Z.to_nat t) X 0, nth (Z.to_nat t) Y 0) (combine X Y)).
  { intros t Ht. rewrite <- (combine_nth X Y (Z.to_nat t) 0 0 HL). apply nth_In. rewrite combine_length, <- HL, Nat.min_id. lia. }
  assert (Hxy' : forall x y, In (x, y) (combine X Y) -> exists t, 0 <= t < n /\ x = nth (Z.to_nat t) X 0 /\ y = nth (Z.to_nat t) Y 0).
  { intros x y H. apply (In_nth _ _ (0, 0)) in H as (t & Ht & E). rewrite combine_length, <- HL, Nat.min_id in Ht.
    rewrite combine_nth in E by assumption. injection E as <- <-. exists (Z.of_nat t). rewrite Nat2Z.id. split; [unfold n; lia|auto]. }
  set (cell := fun t => byte_at im (nth (Z.to_nat t) X 0) (nth (Z.to_nat t) Y 0)).
  assert (Ek : forall t, 0 <= t < n -> events (get m2) (k t) = [(cell t, fun _ => u8 v)]).
  { intros t Ht. unfold k, setPixelsKernel. destruct (Z.ltb_spec t n); [|lia]. cbn [events]. rewrite GX, GY by assumption.
    destruct (Hin _ _ (Hxy t Ht)) as [Hx Hy]. rewrite in_range_in by lia. cbn [events].
    destruct (byte_at_ok m2 im _ _ W2 Hx Hy) as [-> _]. reflexivity. }
  assert (Ek' : forall t, n <= t -> k t = PDone).
  { intros t Ht. unfold k, setPixelsKernel. destruct (Z.ltb_spec t n); [lia|reflexivity]. }
  assert (R : device_run (roomy (dThreads d) (dx (dGrid d)) n) m2 (fun s => launch1D d s m2 n k)
    (fun M => (forall x y, In (x, y) (combine X Y) -> get M (byte_at im x y) = u8 v) /\
       (forall p, (forall x y, In (x, y) (combine X Y) -> p <> byte_at im x y) -> get M p = get m2 p) /\
       (forall b, len M b = len m2 b))).
  { apply launch1D_run; [assumption|lia| |].
    - intros t Ht. destruct (Z_lt_le_dec t n) as [Hlt|Hge]; [|rewrite Ek' by assumption; exact I].
      assert (No : forall q, (exists x', 0 <= x' /\ x' <> t /\ In q (map fst (events (get m2) (k x')))) -> fst q = fst (ibase im)).
      { intros q (x' & Hx' & _ & H). destruct (Z_lt_le_dec x' n) as [A|A].
        - rewrite Ek in H by lia. destruct H as [<-|[]]. reflexivity.
        - rewrite Ek' in H by lia. destruct H. }
      unfold k, setPixelsKernel. destruct (Z.ltb_spec t n) as [Hq|Hq]; [|lia]. clear Hq. cbn [sound].
      split. { apply inb_iff. cbn [padd fst snd]. unfold m2, m1. rewrite !with_block_len. destruct (Z.eqb_spec b1 b2); [congruence|]. rewrite Z.eqb_refl. fold n. lia. }
      split. { intros H. apply No in H. cbn in H. congruence. }
      split. { apply inb_iff. cbn [padd fst snd]. unfold m2. rewrite with_block_len, Z.eqb_refl, <- HL. fold n. lia. }
      split. { intros H. apply No in H. cbn in H. congruence. }
      rewrite GX, GY by lia. destruct (Hin _ _ (Hxy t ltac:(lia))) as [Hx Hy]. rewrite in_range_in by lia. cbn [sound].
      destruct (byte_at_ok m2 im _ _ W2 Hx Hy) as [-> I2]. split; [exact I2|exact I].
    - intros t es Ht _ HP.
      assert (HI : forall e, In e es -> exists u, 0 <= u < n /\ e = (cell u, fun _ => u8 v)).
      { intros e He. apply (Permutation_in _ HP) in He. apply in_flat_map in He as (u & Hu & He). apply zrange_In in Hu.
        destruct (Z_lt_le_dec u n) as [A|A].
        - rewrite Ek in He by lia. destruct He as [<-|[]]. exists u. split; [lia|reflexivity].
        - rewrite Ek' in He by lia. destruct He. }
      split; [|split].
      + intros x y Hxy0. destruct (Hxy' x y Hxy0) as (u & Hu & -> & ->). apply apply_const.
        * exists (cell u, fun _ => u8 v). split; [|reflexivity]. apply (Permutation_in _ (Permutation_sym HP)).
          apply in_flat_map. exists u. split; [apply zrange_In; lia|]. rewrite Ek by assumption. left. reflexivity.
        * intros e He _ a. destruct (HI e He) as (u' & _ & ->). reflexivity.
      + intros p Hp. apply apply_all_untouched. intros e He E. destruct (HI e He) as (u' & Hu' & ->). cbn [fst] in E.
        apply (Hp _ _ (Hxy u' Hu')). symmetry. exact E.
      + intros b. apply apply_all_len. }
  assert (Eg : forall s, cuda_SetPixels d (Some b1) (Some b2) s m im X Y v =
     match launch1D d s m2 n k with
     | Ok M => Ok (without_block m (without_block m1 M b2) b1, tt)
     | Throw M => Throw (without_block m (without_block m1 M b2) b1)
     | UB => UB | Timeout => Timeout end).
  { intros s. unfold cuda_SetPixels. rewrite (valid_image_ok m) by assumption. rewrite HL, Nat.eqb_refl.
    destruct (Nat.eqb_spec (length Y) 0) as [E|_]; [exfalso; apply Hne; destruct X; [reflexivity|cbn in HL; lia]|].
    replace (forallb _ (combine X Y)) with true.
    2:{ symmetry. apply forallb_forall. intros [x y] H. destruct (Hin x y H). cbn [fst snd].
        destruct (Z.leb_spec (iw im) x); [lia|]. destruct (Z.leb_spec (ih im) y); [lia|]. reflexivity. }
    rewrite <- HL. fold n. rewrite (u32_small n) by lia. unfold with_array. fold m1. fold m2. fold k.
    destruct (launch1D d s m2 n k); reflexivity. }
  assert (Hout : forall p, fst p <> b1 -> fst p <> b2 -> get m2 p = get m p).
  { intros p H1 H2. unfold m2, m1. rewrite !with_block_get. destruct (Z.eqb_spec (fst p) b2); [contradiction|]. destruct (Z.eqb_spec (fst p) b1); [contradiction|reflexivity]. }
  assert (Hget : forall M p, get (without_block m (without_block m1 M b2) b1) p =
     if fst p =? b1 then get m p else if fst p =? b2 then get m p else get M p).
  { intros M p. rewrite !without_block_get. destruct (Z.eqb_spec (fst p) b1) as [|E1]; [reflexivity|].
    destruct (Z.eqb_spec (fst p) b2); [|reflexivity]. unfold m1. rewrite with_block_get. destruct (Z.eqb_spec (fst p) b1); [contradiction|reflexivity]. }
  assert (Hlen : forall M b, (forall b', len M b' = len m2 b') -> len (without_block m (without_block m1 M b2) b1) b = len m b).
  { intros M b HM. rewrite !without_block_len. destruct (Z.eqb_spec b b1) as [|E1]; [reflexivity|].
    destruct (Z.eqb_spec b b2) as [|E2].
    - unfold m1. rewrite with_block_len. destruct (Z.eqb_spec b b1); [contradiction|reflexivity].
    - rewrite HM. unfold m2, m1. rewrite !with_block_len. destruct (Z.eqb_spec b b2); [contradiction|]. destruct (Z.eqb_spec b b1); [contradiction|reflexivity]. }
  destruct R as [(t & R1 & K & R2)|[R1 R2]].
  - left. exists t. split.
    + intros s. rewrite Eg. destruct (R1 s) as [->|(M & -> & Q1 & Q2 & Q3)]; [left; reflexivity|]. right.
      eexists. split; [reflexivity|]. cbn [fst]. split; [|split].
      * intros x y Hxy0. rewrite Hget. cbn [byte_at fst]. destruct (Z.eqb_spec (fst (ibase im)) b1); [contradiction|].
        destruct (Z.eqb_spec (fst (ibase im)) b2); [contradiction|]. apply Q1, Hxy0.
      * intros p Hp. rewrite Hget. destruct (Z.eqb_spec (fst p) b1) as [|E1]; [reflexivity|].
        destruct (Z.eqb_spec (fst p) b2) as [|E2]; [reflexivity|]. rewrite Q2 by assumption. apply Hout; assumption.
      * intros b. apply Hlen. exact Q3.
    + exists K. intros s Hs. rewrite Eg. specialize (R2 s Hs). destruct (launch1D d s m2 n k); congruence.
  - right. split; [exact R1|]. intros s. rewrite Eg. destruct (R2 s) as (M & -> & S1 & S2). eexists. split; [reflexivity|]. split.
    + intros p. rewrite Hget. destruct (Z.eqb_spec (fst p) b1) as [|E1]; [reflexivity|].
      destruct (Z.eqb_spec (fst p) b2) as [|E2]; [reflexivity|]. rewrite S1. apply Hout; assumption.
    + intros b. apply Hlen. exact S2.
Qed.

(** ** Copies between host and device *)
Lemma convert_samples m inp out : wf m inp -> wf m out -> iw inp = iw out -> ih inp = ih out -> icc inp = icc out ->
  disjoint out 0 0 (iw out) (ih out) inp 0 0 (iw out) (ih out) ->
  writes (iterM (Z.to_nat (ih out)) 0 (fun j => iterM (Z.to_nat (iw out * icc out)) 0 (fun i =>
            sstep [padd (ibase inp) (j * irs inp + i)] (padd (ibase out) (j * irs out + i))
                  (fun vs => @Ok mem Z (nth 0 vs 0)))) m) m out 0 0 (iw out) (ih out) (fun i j c => pixel m inp i j c).
Proof.
  intros W1 Wo Ew Eh Ec D.
  assert (R1 : roi_in inp 0 0 (iw out) (ih out)) by (pose proof (wf_w _ _ Wo); pose proof (wf_h _ _ Wo); constructor; lia).
  assert (Ro : roi_in out 0 0 (iw out) (ih out)) by (pose proof (wf_w _ _ Wo); pose proof (wf_h _ _ Wo); constructor; lia).
  eapply writes_ext; [|intros i j c _; rewrite <- (Z.add_0_l i), <- (Z.add_0_l j); reflexivity].
  assert (O : forall im, origin im 0 0 (icc im) = ibase im).
  { intros im. unfold origin. destruct (ibase im) as [b o]. unfold padd. cbn [fst snd]. f_equal. lia. }
  rewrite <- (O inp), <- (O out).
  apply (samples1_writes (@Ok mem Z)); auto using hazard_of_disjoint.
Qed.

(** Library images: alignment 1 means no padding. *)
Definition unpadded (im : image) : Prop := irs im = iw im * icc im.

Lemma memcpy2D_writes m inp out : wf m inp -> wf m out -> iw inp = iw out -> ih inp = ih out -> icc inp = icc out ->
  disjoint out 0 0 (iw out) (ih out) inp 0 0 (iw out) (ih out) ->
  writes (memcpy2D m (dataptr out) (irs out) (dataptr inp) (irs inp) (u32 (icc inp * iw inp)) (ih inp)) m
    out 0 0 (iw out) (ih out) (fun i j c => pixel m inp i j c).
Proof.
  intros W1 Wo Ew Eh Ec D. pose proof (convert_samples m inp out W1 Wo Ew Eh Ec D) as H.
  pose proof (wf_cc_pos _ _ Wo). pose proof (wf_rs _ _ Wo). pose proof (wf_rs _ _ W1). pose proof (wf_w _ _ Wo). pose proof (wf_h _ _ Wo).
  pose proof (wf_size _ _ Wo).
  unfold memcpy2D. rewrite !(dataptr_ibase m) by assumption.
  replace (u32 (icc inp * iw inp)) with (iw out * icc out).
  2:{ rewrite Ew, Ec, u32_small by nia. lia. }
  rewrite Ew, Ec in *. destruct (Z.leb_spec (iw out * icc out) (irs out)); [|lia]. destruct (Z.leb_spec (iw out * icc out) (irs inp)); [|lia].
  cbn [andb]. rewrite Eh.
  match goal with |- writes ?a _ _ _ _ _ _ _ => match type of H with writes ?b _ _ _ _ _ _ _ => replace a with b; [exact H|] end end.
  apply iterM_ext. intros j M Hj. rewrite <- (Z2Nat.id (iw out * icc out)) at 2 by nia. rewrite memcpy_iterM.
  - apply iterM_ext. intros i M' Hi. rewrite !padd_padd. reflexivity.
  - rewrite Z2Nat.id by nia. apply overlaps_false. intros i i' Hi Hi'. rewrite !padd_padd.
    pose proof (disjoint_samples out 0 0 (iw out) (ih out) inp 0 0 (iw out) (ih out) i j i' j D) as Ds.
    unfold origin in Ds. rewrite !Z.mul_0_l, !Z.add_0_l, !padd_0 in Ds. apply Ds; lia.
Qed.

Lemma memcpy1D_writes m inp out : wf m inp -> wf m out -> iw inp = iw out -> ih inp = ih out -> icc inp = icc out ->
  unpadded inp -> unpadded out ->
  disjoint out 0 0 (iw out) (ih out) inp 0 0 (iw out) (ih out) ->
  writes (@memcpy mem m (dataptr out) (dataptr inp) (u32 (irs inp * ih inp))) m
    out 0 0 (iw out) (ih out) (fun i j c => pixel m inp i j c).
Proof.
  intros W1 Wo Ew Eh Ec U1 Uo D. pose proof (convert_samples m inp out W1 Wo Ew Eh Ec D) as H.
  pose proof (wf_cc_pos _ _ Wo). pose proof (wf_w _ _ Wo). pose proof (wf_h _ _ Wo). pose proof (wf_size _ _ Wo) as Hs.
  unfold unpadded in *. rewrite !(dataptr_ibase m) by assumption.
  set (r := iw out * icc out) in *. assert (Er : irs inp = r) by (rewrite U1, Ew, Ec; reflexivity). rewrite Er, Uo, Eh in *.
  assert (0 < r) by (unfold r; nia). rewrite u32_small by nia.
  match goal with |- writes ?a _ _ _ _ _ _ _ => match type of H with writes ?b _ _ _ _ _ _ _ => replace a with b; [exact H|] end end.
  symmetry. replace (r * ih out) with (Z.of_nat (Z.to_nat (ih out) * Z.to_nat r)) by nia.
  rewrite memcpy_iterM.
  - change 0 with (0 * Z.of_nat (Z.to_nat r)) at 1. rewrite <- (iterM_nest (Z.to_nat r)). apply iterM_ext. intros j M Hj. apply iterM_ext. intros i M' Hi.
    rewrite (Z2Nat.id r) by lia. reflexivity.
  - apply overlaps_false. intros i i' Hi Hi'.
    pose proof (Z.div_mod i r ltac:(lia)). pose proof (Z.mod_pos_bound i r ltac:(lia)).
    pose proof (Z.div_mod i' r ltac:(lia)). pose proof (Z.mod_pos_bound i' r ltac:(lia)).
    pose proof (disjoint_samples out 0 0 (iw out) (ih out) inp 0 0 (iw out) (ih out) (i mod r) (i / r) (i' mod r) (i' / r) D) as Ds.
    unfold origin in Ds. rewrite !Z.mul_0_l, !Z.add_0_l, !padd_0, Er, Uo in Ds.
    replace (i / r * r + i mod r) with i in Ds by lia. replace (i' / r * r + i' mod r) with i' in Ds by lia.
    fold r in Ds. rewrite Ec in Ds. fold r in Ds. apply Ds; try lia; try nia; try (apply Z.div_pos; lia); split; try (apply Z.div_pos; lia); apply Z.div_lt_upper_bound; nia.
Qed.
