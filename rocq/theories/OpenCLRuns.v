(** Proofs about the functions of OpenCL.v.  Each lemma tells on which regions a function
    really works; for the functions that swap startX and startY this is the region at
    (startY, startX). *)
From Coq Require Import ZArith List Bool Lia Permutation.
From Verif Require Import Base Image Spec BaseProofs ImgFun ImgLemmas ImgProofs SafeProofs ReduceProofs FuncPoolProofs
  Cuda CudaProofs CudaRuns CudaSums OpenCL OpenCLProofs.
Import ListNotations.
Open Scope Z_scope.

Ltac Zify.zify_post_hook ::= idtac.

(** A launch that stores one sample per work-item. *)
Lemma cl_store_launch d m out xo yo w h k val : cl_ok d -> area m out xo yo w h ->
  (forall x y, ~ (x < w * icc out /\ y < h) -> k x y = PDone) ->
  (forall i j, 0 <= i < w * icc out -> 0 <= j < h ->
     events (get m) (k i j) = [(padd (origin out xo yo (icc out)) (j * irs out + i), fun _ => val j i)]) ->
  (forall i j, 0 <= i < w * icc out -> 0 <= j < h ->
     sound m (get m) (fun q => exists i' j', 0 <= i' < w * icc out /\ 0 <= j' < h /\ (i', j') <> (i, j) /\
                        q = padd (origin out xo yo (icc out)) (j' * irs out + i')) (k i j)) ->
  device_run (cl_roomy d) m (fun s => cl_launch2D d s m (w * icc out) h k)
    (fun M => writes (@Ok mem mem M) m out xo yo w h (fun i j c => val j (i * icc out + c))).
Proof.
  intros Hd [Wo Ro] Hout He Hs.
  pose proof (wf_cc_pos _ _ Wo) as Hcc. assert (Hw0 : 0 < w) by apply Ro. assert (Hh0 : 0 < h) by apply Ro.
  destruct (area_small m out xo yo w h (conj Wo Ro)) as (HW & _ & HH).
  apply cl_launch2D_run; [assumption|lia|lia| | |].
  - intros x y _ _ H. apply Hout, H.
  - intros x y Hx Hy. eapply sound_weak; [|apply Hs; assumption].
    intros q (x' & y' & Hx' & Hy' & Hne & Hq). rewrite He in Hq by assumption. destruct Hq as [<-|[]].
    exists x', y'. auto.
  - intros es HP. apply stores_samples; auto. rewrite HP. unfold all_events.
    erewrite flat_map_pairs_ext; [reflexivity|]. intros x y Hx Hy. cbn [fst snd]. apply He; assumption.
Qed.

Lemma cl2_run f d m in1 x1 y1 in2 x2 y2 out xo yo w h : cl_ok d ->
  area m in1 x1 y1 w h -> area m in2 x2 y2 w h -> area m out xo yo w h ->
  icc in1 = icc out -> icc in2 = icc out ->
  no_hazard out xo yo in1 x1 y1 w h -> no_hazard out xo yo in2 x2 y2 w h ->
  device_run (cl_roomy d) m
    (fun s => cl2 f d s m in1 x1 y1 in2 x2 y2 out xo yo w h)
    (fun M => writes (@Ok mem mem M) m out xo yo w h
       (fun i j c => f (pixel m in1 (x1 + i) (y1 + j) c) (pixel m in2 (x2 + i) (y2 + j) c))).
Proof.
  intros Hd [W1 R1] [W2 R2] [Wo Ro] C1 C2 N1 N2.
  pose proof (wf_cc_pos _ _ Wo) as Hcc.
  set (k := cl_kernel2 f (dataptr in1) (start_at in1 x1 y1 (icc in1)) (irs in1) (dataptr in2) (start_at in2 x2 y2 (icc in2)) (irs in2)
              (dataptr out) (start_at out xo yo (icc out)) (irs out) (w * icc out) h).
  assert (Hw : u32 (w * icc out) = w * icc out) by (destruct Ro; apply (u32_width m out xo); auto; lia).
  apply (device_run_ext _ _ (fun s => cl_launch2D d s m (w * icc out) h k)).
  { intros s. unfold cl2, valid_roi3, valid_roi2. rewrite !(valid_roi_ok m) by assumption. cbn [andb].
    unfold common_cc3, common_cc2. rewrite ?C1, ?C2, ?Z.eqb_refl. cbn [andb]. rewrite Hw.
    unfold k. rewrite C1, C2. reflexivity. }
  assert (Ek : forall x y, 0 <= x < w * icc out -> 0 <= y < h -> k x y =
     PLoad (padd (origin in1 x1 y1 (icc in1)) (y * irs in1 + x)) (fun a =>
     PLoad (padd (origin in2 x2 y2 (icc in2)) (y * irs in2 + x)) (fun b =>
     PStore (padd (origin out xo yo (icc out)) (y * irs out + x)) (f a b) PDone))).
  { intros x y Hx Hy. unfold k, cl_kernel2. rewrite in_range_in by lia.
    rewrite (at_cl_ok m in1 x1 y1 w h), (at_cl_ok m in2 x2 y2 w h), (at_cl_ok m out xo yo w h) by (auto || rewrite ?C1, ?C2; auto). reflexivity. }
  eapply device_run_weak; [intros M HM; eapply writes_ext; [exact HM|]|
    apply (cl_store_launch d m out xo yo w h k (fun j i => f (get m (padd (origin in1 x1 y1 (icc in1)) (j * irs in1 + i)))
         (get m (padd (origin in2 x2 y2 (icc in2)) (j * irs in2 + i))))); [assumption|split; assumption| | |]].
  - intros i j c Hi. cbv beta. unfold pixel. rewrite !px_origin, C1, C2. reflexivity.
  - intros x y H. apply in_range_out, H.
  - intros x y Hx Hy. rewrite Ek by assumption. reflexivity.
  - intros x y Hx Hy. rewrite Ek by assumption. cbn [sound].
    split; [apply (cell_inb m in1 x1 y1 w h); auto; lia|]. split.
    { intros (x' & y' & Hx' & Hy' & Hne & E). apply Hne.
      symmetry in E. apply (hazard_samples out xo yo in1 x1 y1 w h) in E as [-> ->]; auto; lia. }
    split; [apply (cell_inb m in2 x2 y2 w h); auto; lia|]. split.
    { intros (x' & y' & Hx' & Hy' & Hne & E). apply Hne.
      symmetry in E. apply (hazard_samples out xo yo in2 x2 y2 w h) in E as [-> ->]; auto; lia. }
    split; [apply (cell_inb m out xo yo w h); auto; lia|]. exact I.
Qed.

(** The kernel with one input, on two regions. *)
Lemma cl_kernel1_run f d m inp xi yi out xo yo w h : cl_ok d ->
  area m inp xi yi w h -> area m out xo yo w h -> icc inp = icc out ->
  no_hazard out xo yo inp xi yi w h ->
  device_run (cl_roomy d) m (fun s => cl_launch2D d s m (w * icc out) h
      (cl_kernel1 f (dataptr inp) (start_at inp xi yi (icc inp)) (irs inp)
                    (dataptr out) (start_at out xo yo (icc out)) (irs out) (w * icc out) h))
    (fun M => writes (@Ok mem mem M) m out xo yo w h (fun i j c => f (pixel m inp (xi + i) (yi + j) c))).
Proof.
  intros Hd [W1 R1] [Wo Ro] C1 N1.
  pose proof (wf_cc_pos _ _ Wo) as Hcc.
  set (k := cl_kernel1 f (dataptr inp) (start_at inp xi yi (icc inp)) (irs inp)
                    (dataptr out) (start_at out xo yo (icc out)) (irs out) (w * icc out) h).
  assert (Ek : forall x y, 0 <= x < w * icc out -> 0 <= y < h -> k x y =
     PLoad (padd (origin inp xi yi (icc inp)) (y * irs inp + x)) (fun a =>
     PStore (padd (origin out xo yo (icc out)) (y * irs out + x)) (f a) PDone)).
  { intros x y Hx Hy. unfold k, cl_kernel1. rewrite in_range_in by lia.
    rewrite (at_cl_ok m inp xi yi w h), (at_cl_ok m out xo yo w h) by (auto || rewrite ?C1; auto). reflexivity. }
  eapply device_run_weak; [intros M HM; eapply writes_ext; [exact HM|]|
    apply (cl_store_launch d m out xo yo w h k (fun j i => f (get m (padd (origin inp xi yi (icc inp)) (j * irs inp + i)))));
      [assumption|split; assumption| | |]].
  - intros i j c Hi. cbv beta. unfold pixel. rewrite !px_origin, C1. reflexivity.
  - intros x y H. apply in_range_out, H.
  - intros x y Hx Hy. rewrite Ek by assumption. reflexivity.
  - intros x y Hx Hy. rewrite Ek by assumption. cbn [sound].
    split; [apply (cell_inb m inp xi yi w h); auto; lia|]. split.
    { intros (x' & y' & Hx' & Hy' & Hne & E). apply Hne.
      symmetry in E. apply (hazard_samples out xo yo inp xi yi w h) in E as [-> ->]; auto; lia. }
    split; [apply (cell_inb m out xo yo w h); auto; lia|]. exact I.
Qed.

Lemma cl_Invert_run d m inp xi yi out xo yo w h : cl_ok d ->
  area m inp xi yi w h -> area m out xo yo w h -> icc inp = icc out ->
  no_hazard out xo yo inp xi yi w h ->
  device_run (cl_roomy d) m (fun s => cl_Invert d s m inp xi yi out xo yo w h)
    (fun M => writes (@Ok mem mem M) m out xo yo w h (fun i j c => invert_k (pixel m inp (xi + i) (yi + j) c))).
Proof.
  intros Hd A1 Ao C1 N1. pose proof A1 as [W1 R1]. pose proof Ao as [Wo Ro].
  assert (Hw : u32 (w * icc out) = w * icc out) by (destruct Ro; apply (u32_width m out xo); auto; lia).
  eapply device_run_ext; [|apply (cl_kernel1_run invert_k d m inp xi yi out xo yo w h); assumption].
  intros s. unfold cl_Invert, valid_roi2, common_cc2. rewrite !(valid_roi_ok m) by assumption. cbn [andb].
  rewrite C1, Z.eqb_refl, Hw. reflexivity.
Qed.

(** The thresholds read the region at (yi, xi). *)
Lemma cl_thr_run ps l f d m inp xi yi out xo yo w h : cl_ok d ->
  args_ok ps ([AMem; AU32; AU32; AMem; AU32; AU32; AU32; AU32] ++ l) = true ->
  roi_in inp xi yi w h -> area m inp yi xi w h -> area m out xo yo w h -> icc inp = 1 -> icc out = 1 ->
  no_hazard out xo yo inp yi xi w h ->
  device_run (cl_roomy d) m (fun s => cl_thr ps l f d s m inp xi yi out xo yo w h)
    (fun M => writes (@Ok mem mem M) m out xo yo w h (fun i j c => f (pixel m inp (yi + i) (xi + j) c))).
Proof.
  intros Hd Ha R A1 Ao C1 Co N1. pose proof A1 as [W1 R1]. pose proof Ao as [Wo Ro].
  eapply device_run_ext; [|apply (cl_kernel1_run f d m inp yi xi out xo yo w h); try assumption; congruence].
  intros s. unfold cl_thr, valid_roi2. rewrite !(valid_roi_ok m), !is_gray_true by assumption. cbn [andb].
  rewrite Ha, C1, Co, Z.mul_1_r. reflexivity.
Qed.

(** Copy reads the region at (yi, xi) and writes the region at (0, 1). *)
Lemma cl_Copy_run d m inp xi yi out xo yo w h : cl_ok d ->
  roi_in inp xi yi w h -> roi_in out xo yo w h -> area m inp yi xi w h -> area m out 0 1 w h -> icc inp = icc out ->
  no_hazard out 0 1 inp yi xi w h ->
  device_run (cl_roomy d) m (fun s => cl_Copy d s m inp xi yi out xo yo w h)
    (fun M => writes (@Ok mem mem M) m out 0 1 w h (fun i j c => pixel m inp (yi + i) (xi + j) c)).
Proof.
  intros Hd R R' A1 Ao C1 N1. pose proof A1 as [W1 R1]. pose proof Ao as [Wo Ro].
  assert (Hw : u32 (w * icc out) = w * icc out) by (destruct Ro; apply (u32_width m out 0); auto; lia).
  eapply device_run_ext; [|apply (cl_kernel1_run (fun a => a) d m inp yi xi out 0 1 w h); assumption].
  intros s. unfold cl_Copy, valid_roi2, common_cc2. rewrite !(valid_roi_ok m) by assumption. cbn [andb].
  rewrite C1, Z.eqb_refl, Hw.
  destruct (dataptr_origin m out 0 1 w h Wo Ro) as [_ E]. unfold cl_copyKernel, cl_kernel1. rewrite E.
  replace (1 * irs out + 0 * icc out) with (irs out) by ring. reflexivity.
Qed.

(** Fill writes the region at (y, x). *)
Lemma cl_Fill_run d m im x y w h v : cl_ok d -> roi_in im x y w h -> area m im y x w h -> icc im = 1 ->
  device_run (cl_roomy d) m (fun s => cl_Fill d s m im x y w h v)
    (fun M => writes (@Ok mem mem M) m im y x w h (fun _ _ _ => v)).
Proof.
  intros Hd R0 [W R] C. pose proof (wf_cc_pos _ _ W) as Hcc.
  set (k := cl_fillKernel (dataptr im) (start_at im y x (icc im)) (irs im) w h v).
  apply (device_run_ext _ _ (fun s => cl_launch2D d s m (w * icc im) h k)).
  { intros s. unfold cl_Fill. rewrite (valid_roi_ok m) by assumption. rewrite is_gray_true by assumption. cbn [andb].
    unfold k. rewrite C, Z.mul_1_r. reflexivity. }
  assert (Ek : forall a b, 0 <= a < w * icc im -> 0 <= b < h -> k a b = PStore (padd (origin im y x (icc im)) (b * irs im + a)) v PDone).
  { intros a b Ha Hb. unfold k, cl_fillKernel. rewrite in_range_in by lia. rewrite (at_cl_ok m im y x w h) by auto. reflexivity. }
  apply (cl_store_launch d m im y x w h k (fun _ _ => v)); [assumption|split; assumption| | |].
  - intros a b H. apply in_range_out. lia.
  - intros a b Ha Hb. rewrite Ek by assumption. reflexivity.
  - intros a b Ha Hb. rewrite Ek by assumption. cbn [sound]. split; [apply (cell_inb m im y x w h); auto; lia|exact I].
Qed.

(** Flip works on as many pixels as the whole input has. *)
Lemma cl_Flip_run d m inp xi yi out xo yo w h hor ver : cl_ok d -> hor = true \/ ver = true ->
  roi_in inp xi yi w h -> roi_in out xo yo w h ->
  area m inp xi yi (iw inp) (ih inp) -> area m out xo yo (iw inp) (ih inp) -> icc inp = 1 -> icc out = 1 ->
  disjoint out xo yo (iw inp) (ih inp) inp xi yi (iw inp) (ih inp) ->
  device_run (cl_roomy d) m (fun s => cl_Flip d s m inp xi yi out xo yo w h hor ver)
    (fun M => writes (@Ok mem mem M) m out xo yo (iw inp) (ih inp)
       (fun i j _ => pixel m inp (xi + mirror hor (iw inp) i) (yi + mirror ver (ih inp) j) 0)).
Proof.
  intros Hd Hhv R R' A1 Ao C1 Co D. pose proof A1 as [W1 R1]. pose proof Ao as [Wo Ro].
  destruct (area_small m out xo yo _ _ Ao) as (_ & Sw & Sh).
  assert (Eb : negb hor && negb ver = false) by (destruct Hhv; subst; [reflexivity|apply andb_false_r]).
  set (W := iw inp) in *. set (H := ih inp) in *.
  set (k := cl_flipKernel (dataptr inp) (start_at inp xi yi (icc inp)) (irs inp) (dataptr out) (start_at out xo yo (icc out)) (irs out) W H hor ver).
  apply (device_run_ext _ _ (fun s => cl_launch2D d s m W H k)).
  { intros s. unfold cl_Flip, valid_roi2. rewrite !(valid_roi_ok m), !is_gray_true by assumption. cbn [andb]. rewrite Eb.
    unfold k. rewrite C1, Co. reflexivity. }
  assert (Em : forall b n t, 0 <= t < n -> 0 < n < W32 -> (if b : bool then u64 (n - 1 - t) else t) = mirror b n t /\ 0 <= mirror b n t < n).
  { intros b n t Ht Hn. unfold mirror. unfold W32 in Hn. destruct b; [rewrite u64_small by (rewrite W64_val; lia)|]; split; auto; lia. }
  assert (Mm : forall b n t, mirror b n (mirror b n t) = t) by (intros b n t; unfold mirror; destruct b; lia).
  assert (Ek : forall a b, 0 <= a < W -> 0 <= b < H -> k a b =
    PLoad (padd (origin inp xi yi (icc inp)) (b * irs inp + a)) (fun v =>
    PStore (padd (origin out xo yo (icc out)) (mirror ver H b * irs out + mirror hor W a)) v PDone)).
  { intros a b Ha Hb. unfold k, cl_flipKernel. rewrite in_range_in by lia.
    destruct (Em hor W a Ha Sw) as [-> Ma]. destruct (Em ver H b Hb Sh) as [-> Mb].
    rewrite (at_cl_ok m inp xi yi W H), (at_cl_ok m out xo yo W H) by (auto; rewrite ?C1, ?Co; lia). reflexivity. }
  apply cl_launch2D_run; auto.
  - intros a b _ _ Hr. apply in_range_out, Hr.
  - intros a b Ha Hb. rewrite Ek by assumption. cbn [sound].
    split; [apply (cell_inb m inp xi yi W H); auto; rewrite C1; lia|]. split.
    { intros (x' & y' & Hx' & Hy' & Hne & E). rewrite Ek in E by assumption. destruct E as [E|[]]. revert E. cbn [fst].
      destruct (Em hor W x' Hx' Sw) as [_ Ma]. destruct (Em ver H y' Hy' Sh) as [_ Mb].
      apply (disjoint_cells out xo yo inp xi yi W H); auto; lia. }
    destruct (Em hor W a Ha Sw) as [_ Ma]. destruct (Em ver H b Hb Sh) as [_ Mb].
    split; [apply (cell_inb m out xo yo W H); auto; rewrite Co; lia|exact I].
  - intros es HP.
    assert (Hin : forall e, In e es <-> exists a b, 0 <= a < W /\ 0 <= b < H /\
       e = (padd (origin out xo yo (icc out)) (mirror ver H b * irs out + mirror hor W a),
            fun _ => get m (padd (origin inp xi yi (icc inp)) (b * irs inp + a)))).
    { intros e. transitivity (In e (all_events W H m k)).
      { split; apply Permutation_in; [exact HP|apply Permutation_sym, HP]. }
      rewrite all_events_In. split; intros (a & b & Ha & Hb & He); exists a, b; split; auto; split; auto.
      - rewrite Ek in He by assumption. destruct He as [<-|[]]. reflexivity.
      - rewrite Ek by assumption. left. symmetry. exact He. }
    eapply writes_ext.
    + apply (writes_of_events m es out xo yo W H
        (fun j i => get m (padd (origin inp xi yi (icc inp)) (mirror ver H j * irs inp + mirror hor W i)))); auto.
      * intros e He. apply Hin in He as (a & b & Ha & Hb & ->). exists (mirror hor W a), (mirror ver H b).
        destruct (Em hor W a Ha Sw) as [_ Ma]. destruct (Em ver H b Hb Sh) as [_ Mb]. cbn [fst]. split; [lia|]. auto.
      * intros e i j He Hi Hj E v. apply Hin in He as (a & b & Ha & Hb & ->). cbn [fst snd] in *.
        destruct (Em hor W a Ha Sw) as [_ Ma].
        apply (cell_inj m _ _ _ W H) in E as [<- <-]; auto; [|lia]. rewrite !Mm. reflexivity.
      * intros i j Hi Hj. rewrite Co, Z.mul_1_r in Hi.
        destruct (Em hor W i Hi Sw) as [_ Ma]. destruct (Em ver H j Hj Sh) as [_ Mb].
        eexists. split; [apply Hin; exists (mirror hor W i), (mirror ver H j); split; [exact Ma|split; [exact Mb|reflexivity]]|].
        cbn [fst]. rewrite !Mm. reflexivity.
    + intros i j c (_ & _ & Hc). cbv beta. unfold pixel. rewrite px_origin, C1. replace (i * icc out + c) with i by lia.
      rewrite Z.mul_1_r, Z.add_0_r. reflexivity.
Qed.

(** ** Colour conversion: the input region is at (yi, xi) *)
Lemma cl_Gray_run d fresh m inp xi yi out xo yo w h : cl_ok d -> roi_in inp xi yi w h ->
  area m inp yi xi w h -> area m out xo yo w h -> icc inp <> 1 -> icc out = 1 -> bytes m inp ->
  disjoint out xo yo w h inp yi xi w h ->
  device_run (cl_roomy d) m (fun s => cl_ConvertToGrayScale d fresh s m inp xi yi out xo yo w h)
    (fun r => snd r = out /\ writes (@Ok mem mem (fst r)) m out xo yo w h
       (fun i j _ => zsum (icc inp) (fun c => pixel m inp (yi + i) (xi + j) c) / icc inp)).
Proof.
  intros Hd R0 [W1 R1] [Wo Ro] C1 Co B D. pose proof (wf_cc_pos _ _ W1) as Hcc.
  set (k := cl_grayKernel (dataptr inp) (start_at inp yi xi (icc inp)) (irs inp) (icc inp) (dataptr out) (start_at out xo yo (icc out)) (irs out) w h).
  apply (device_run_ext _ _ (fun s => do M <- cl_launch2D d s m (w * icc out) h k; Ok (M, out))).
  { intros s. unfold cl_ConvertToGrayScale, valid_roi2. rewrite !(valid_roi_ok m), !is_gray_true by assumption. cbn [andb].
    destruct (Z.eqb_spec (icc inp) GRAY_SCALE); [contradiction|].
    unfold k. rewrite Co, Z.mul_1_r. reflexivity. }
  apply (device_run_bind _ _ _ (fun M => (M, out))). cbn [fst snd].
  set (cell := fun a b => padd (origin inp yi xi (icc inp)) (b * irs inp + a * icc inp)).
  assert (Ek : forall a b, 0 <= a < w * icc out -> 0 <= b < h -> k a b =
    sum_channels (Z.to_nat (icc inp)) (cell a b) 0 (fun sum =>
    PStore (padd (origin out xo yo (icc out)) (b * irs out + a)) (u8 (sum / icc inp)) PDone)).
  { intros a b Ha Hb. unfold k, cl_grayKernel. rewrite in_range_in by lia. rewrite (at_cl_ok m out xo yo w h) by auto.
    f_equal. unfold cell. rewrite <- (at_cl_ok m inp yi xi w h) by (auto; nia). unfold at_cl. do 2 f_equal. ring. }
  assert (Ev : forall a b, 0 <= a < w * icc out -> 0 <= b < h ->
    u8 (chan_sum (get m) (Z.to_nat (icc inp)) (cell a b) 0 / icc inp)
    = zsum (icc inp) (fun c => pixel m inp (yi + a) (xi + b) c) / icc inp).
  { intros a b Ha Hb.
    assert (G : forall i, 0 <= i < icc inp -> 0 <= get m (padd (cell a b) i) < 256).
    { intros i Hi. replace (get m (padd (cell a b) i)) with (pixel m inp (yi + a) (xi + b) i).
      - destruct R1. apply B; lia.
      - unfold pixel, cell. rewrite px_origin, padd_padd. do 2 f_equal. lia. }
    rewrite chan_sum_value by (rewrite ?Z2Nat.id by lia; auto; lia).
    rewrite Z.add_0_l. fold (zsum (icc inp) (fun i => get m (padd (cell a b) i))).
    rewrite (zsum_ext (icc inp) _ (fun c => pixel m inp (yi + a) (xi + b) c)).
    - pose proof (zsum_bound (icc inp) (fun c => pixel m inp (yi + a) (xi + b) c) 0 255 ltac:(lia)) as ZB.
      assert (ZB' : icc inp * 0 <= zsum (icc inp) (fun c => pixel m inp (yi + a) (xi + b) c) <= icc inp * 255).
      { apply ZB. intros c Hc. destruct R1. pose proof (B (yi + a) (xi + b) c ltac:(lia) ltac:(lia) ltac:(lia)). lia. }
      unfold u8. apply Z.mod_small. split; [apply Z.div_pos; lia|apply Z.div_lt_upper_bound; lia].
    - intros c Hc. unfold pixel, cell. rewrite px_origin, padd_padd. do 2 f_equal. lia. }
  eapply device_run_weak; [intros M HM; split; [reflexivity|]; eapply writes_ext; [exact HM|]|
    apply (cl_store_launch d m out xo yo w h k (fun j i => zsum (icc inp) (fun c => pixel m inp (yi + i) (xi + j) c) / icc inp));
      [assumption|split; assumption| | |]].
  - intros i j c (Hi & Hj & Hc). cbv beta. replace (i * icc out + c) with i by lia. reflexivity.
  - intros a b H. apply in_range_out. lia.
  - intros a b Ha Hb. rewrite Ek, sum_channels_events by assumption. cbn [events]. rewrite Ev by assumption. reflexivity.
  - intros a b Ha Hb. rewrite Ek by assumption. apply sum_channels_sound.
    + intros i Hi. rewrite Z2Nat.id in Hi by lia. unfold cell. rewrite padd_padd.
      replace (b * irs inp + a * icc inp + i) with (b * irs inp + (a * icc inp + i)) by lia.
      assert (0 <= a * icc inp + i < w * icc inp) by nia.
      split; [apply (cell_inb m inp yi xi w h); auto; lia|].
      intros (x' & y' & Hx' & Hy' & Hne & E). symmetry in E. revert E. apply (disjoint_cells out xo yo inp yi xi w h); auto; lia.
    + cbn [sound]. split; [apply (cell_inb m out xo yo w h); auto; lia|exact I].
Qed.

Lemma cl_Rgb_run d fresh m inp xi yi out xo yo w h : cl_ok d -> roi_in inp xi yi w h ->
  area m inp yi xi w h -> area m out xo yo w h -> icc inp = 1 -> icc out = 3 ->
  disjoint out xo yo w h inp yi xi w h ->
  device_run (cl_roomy d) m (fun s => cl_ConvertToRgb d fresh s m inp xi yi out xo yo w h)
    (fun r => snd r = out /\
       writes (@Ok mem mem (fst r)) m out xo yo w h (fun i j _ => pixel m inp (yi + i) (xi + j) 0)).
Proof.
  intros Hd R0 A1 Ao C1 Co D. pose proof A1 as [W1 R1]. pose proof Ao as [Wo Ro].
  destruct (area_small m out xo yo w h Ao) as (_ & Sw & Sh).
  set (k := cl_rgbKernel (dataptr inp) (start_at inp yi xi (icc inp)) (irs inp) (dataptr out) (start_at out xo yo (icc out)) (irs out) (icc out) w h).
  apply (device_run_ext _ _ (fun s => do M <- cl_launch2D d s m w h k; Ok (M, out))).
  { intros s. unfold cl_ConvertToRgb, valid_roi2. rewrite !(valid_roi_ok m), !is_rgb_true by assumption. cbn [andb].
    destruct (Z.eqb_spec (icc inp) RGB) as [E|_]; [unfold RGB in E; lia|]. reflexivity. }
  apply (device_run_bind _ _ _ (fun M => (M, out))). cbn [fst snd].
  set (cell := fun a b => padd (origin out xo yo (icc out)) (b * irs out + a * icc out)).
  assert (Ek : forall a b, 0 <= a < w -> 0 <= b < h -> k a b =
    fill_channels 3 (cell a b) (padd (origin inp yi xi (icc inp)) (b * irs inp + a))).
  { intros a b Ha Hb. unfold k, cl_rgbKernel. rewrite in_range_in by lia. rewrite (at_cl_ok m inp yi xi w h) by (auto; lia).
    replace (Z.to_nat (icc out)) with 3%nat by (rewrite Co; reflexivity). f_equal.
    unfold cell. rewrite <- (at_cl_ok m out xo yo w h) by (auto; nia). unfold at_cl. do 2 f_equal. ring. }
  assert (Hin1 : forall a b e, 0 <= a < w -> 0 <= b < h -> In e (events (get m) (k a b)) -> exists i, 0 <= i < 3 /\
     e = (padd (origin out xo yo (icc out)) (b * irs out + (a * icc out + i)), fun _ => get m (padd (origin inp yi xi (icc inp)) (b * irs inp + a)))).
  { intros a b e Ha Hb He. rewrite Ek in He by assumption. apply fill_channels_events in He as (i & Hi & ->).
    exists i. split; [lia|]. unfold cell. rewrite padd_padd. do 2 f_equal. lia. }
  apply cl_launch2D_run; auto.
  - intros a b _ _ H. apply in_range_out, H.
  - intros a b Ha Hb. rewrite Ek by assumption. apply fill_channels_sound.
    + apply (cell_inb m inp yi xi w h); auto; lia.
    + intros (x' & y' & Hx' & Hy' & Hne & E). apply in_map_iff in E as (e & E & He). apply Hin1 in He as (i & Hi & ->); auto.
      revert E. cbn [fst]. apply (disjoint_cells out xo yo inp yi xi w h); auto; lia.
    + intros i Hi. unfold cell. rewrite padd_padd. rewrite <- Z.add_assoc. split; [apply (cell_inb m out xo yo w h); auto; lia|].
      apply (disjoint_cells out xo yo inp yi xi w h); auto; lia.
  - intros es HP. split; [reflexivity|].
    assert (Hin : forall e, In e es <-> In e (all_events w h m k)).
    { intros e. split; apply Permutation_in; [exact HP|apply Permutation_sym, HP]. }
    eapply writes_ext.
    + apply (writes_of_events m es out xo yo w h
        (fun j i => get m (padd (origin inp yi xi (icc inp)) (j * irs inp + i / 3)))); auto.
      * intros e He. apply Hin, all_events_In in He as (a & b & Ha & Hb & He). apply Hin1 in He as (i & Hi & ->); auto.
        exists (a * icc out + i), b. cbn [fst]. split; [lia|]. auto.
      * intros e i j He Hi Hj E v. apply Hin, all_events_In in He as (a & b & Ha & Hb & He). apply Hin1 in He as (c & Hc & ->); auto.
        cbn [fst snd] in *. apply (cell_inj m _ _ _ w h) in E as [-> <-]; auto; [|lia].
        rewrite Co. replace ((a * 3 + c) / 3) with a by (apply Z.div_unique with c; lia). reflexivity.
      * intros i j Hi Hj. rewrite Co in Hi. destruct (split_index 3 i w) as (A1' & A2 & A3); try lia.
        eexists. split.
        -- apply Hin, all_events_In. exists (i / 3), j. split; [exact A1'|]. split; [exact Hj|]. rewrite Ek by assumption.
           apply fill_channels_events. exists (i mod 3). split; [lia|reflexivity].
        -- cbn [fst]. unfold cell. rewrite padd_padd, Co. f_equal. lia.
    + intros i j c (Hi & Hj & Hc). cbv beta. unfold pixel. rewrite px_origin, C1, Co.
      replace ((i * 3 + c) / 3) with i by (apply Z.div_unique with c; lia). do 2 f_equal. lia.
Qed.

(** ** ExtractChannel: the input rows are icc rows apart *)
Definition stretched (n k : Z) : Z := (n - 1) * k + 1.

Lemma disjoint_cells2 a xa ya wa ha b xb yb wb hb i j i' j' : disjoint a xa ya wa ha b xb yb wb hb -> 0 < icc a -> 0 < icc b ->
  0 <= i < wa * icc a -> 0 <= j < ha -> 0 <= i' < wb * icc b -> 0 <= j' < hb ->
  padd (origin a xa ya (icc a)) (j * irs a + i) <> padd (origin b xb yb (icc b)) (j' * irs b + i').
Proof.
  intros D Pa Pb Hi Hj Hi' Hj' E.
  destruct (split_index (icc a) i wa) as (A1 & A2 & A3); try lia.
  destruct (split_index (icc b) i' wb) as (B1 & B2 & B3); try lia.
  apply (D (i / icc a) j (i mod icc a) (i' / icc b) j' (i' mod icc b)); try (unfold inside; lia).
  rewrite !px_origin, <- A3, <- B3. exact E.
Qed.

Lemma cl_Extract_run d m inp xi yi out xo yo w h ch : cl_ok d -> roi_in inp xi yi w h ->
  area m inp yi xi w (stretched h (icc inp)) -> area m out xo yo w h -> icc out = 1 -> 0 <= ch < icc inp ->
  disjoint out xo yo w h inp yi xi w (stretched h (icc inp)) ->
  device_run (cl_roomy d) m (fun s => cl_ExtractChannel d s m inp xi yi out xo yo w h ch)
    (fun M => writes (@Ok mem mem M) m out xo yo w h (fun i j _ => pixel m inp (yi + i) (xi + j * icc inp) ch)).
Proof.
  intros Hd R0 [W1 R1] [Wo Ro] C Hch D. pose proof (wf_cc_pos _ _ W1) as Hcc.
  set (H := stretched h (icc inp)) in *.
  set (k := cl_extractKernel (dataptr inp) (start_at inp yi xi (icc inp)) (irs inp) (icc inp) (dataptr out) (start_at out xo yo (icc out)) (irs out) w h ch).
  apply (device_run_ext _ _ (fun s => cl_launch2D d s m (w * icc out) h k)).
  { intros s. unfold cl_ExtractChannel, valid_roi2. rewrite !(valid_roi_ok m) by assumption. rewrite is_gray_true by assumption. cbn [andb].
    destruct (Z.ltb_spec ch (icc inp)); [|lia].
    unfold k. rewrite C, Z.mul_1_r. reflexivity. }
  assert (Hrow : forall b, 0 <= b < h -> 0 <= b * icc inp < H) by (intros b Hb; unfold H, stretched; nia).
  assert (Ek : forall a b, 0 <= a < w * icc out -> 0 <= b < h -> k a b =
    PLoad (padd (origin inp yi xi (icc inp)) (b * icc inp * irs inp + (a * icc inp + ch))) (fun v =>
    PStore (padd (origin out xo yo (icc out)) (b * irs out + a)) v PDone)).
  { intros a b Ha Hb. unfold k, cl_extractKernel. rewrite in_range_in by lia. rewrite (at_cl_ok m out xo yo w h) by auto.
    rewrite <- (at_cl_ok m inp yi xi w H) by (auto; nia). unfold at_cl. do 3 f_equal. ring. }
  eapply device_run_weak; [intros M HM; eapply writes_ext; [exact HM|]|
    apply (cl_store_launch d m out xo yo w h k (fun j i => get m (padd (origin inp yi xi (icc inp)) (j * icc inp * irs inp + (i * icc inp + ch)))));
      [assumption|split; assumption| | |]].
  - intros i j c (Hi & Hj & Hc). cbv beta. unfold pixel. rewrite px_origin. replace (i * icc out + c) with i by lia. reflexivity.
  - intros a b Hr. apply in_range_out. lia.
  - intros a b Ha Hb. rewrite Ek by assumption. reflexivity.
  - intros a b Ha Hb. rewrite Ek by assumption. cbn [sound].
    assert (0 <= a * icc inp + ch < w * icc inp) by nia. pose proof (Hrow b Hb).
    split; [apply (cell_inb m inp yi xi w H); auto; lia|]. split.
    { intros (x' & y' & Hx' & Hy' & Hne & E). symmetry in E. revert E. apply (disjoint_cells2 out xo yo w h inp yi xi w H); auto; lia. }
    split; [apply (cell_inb m out xo yo w h); auto; lia|]. exact I.
Qed.
