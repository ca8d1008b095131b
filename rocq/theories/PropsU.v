(** Properties C124 to C131: the CUDA back end.  The spec vocabulary ([device_ok],
    [comfortable], [every_run], [device_run]) is defined in CudaProofs.v; [device_run fits m
    call Q] says: over all interleavings of the device threads, every finished run of [call]
    returns a result that meets [Q], it is never undefined, and it finishes once every thread
    has had enough turns; or the call is refused whatever the interleaving, with the memory
    unchanged, which does not happen when [fits]. *)
From Coq Require Import ZArith List Bool Lia.
From Verif Require Import Base Image Spec BaseProofs ImgFun ImgLemmas ImgProofs SafeProofs ReduceProofs
  PropsA PropsB Cuda CudaProofs CudaRuns CudaSums.
Import ListNotations.
Open Scope Z_scope.

Ltac Zify.zify_post_hook ::= idtac.

(** A device as reported by current hardware, and one set to 32 threads per block. *)
Definition gpu : device := mkDevice 1024 1024 (mkDim3 1024 1024 64) (mkDim3 2147483647 65535 65535) false.
Definition gpu32 (streams : bool) : device :=
  mkDevice 32 1024 (mkDim3 1024 1024 64) (mkDim3 2147483647 65535 65535) streams.
Lemma gpu_ok : device_ok gpu.
Proof. constructor; cbn; unfold dim_pos; cbn; lia. Qed.
Lemma gpu32_ok s : device_ok (gpu32 s).
Proof. constructor; cbn; unfold dim_pos; cbn; lia. Qed.
Lemma gpu_comfortable w h : 0 < w <= 2147482624 -> 0 < h <= 65535 -> comfortable gpu w h.
Proof. intros Hw Hh. unfold comfortable, roomy, W32. cbn. lia. Qed.
Lemma gpu32_comfortable s w h : 0 < w <= 2147482624 -> 0 < h <= 65535 -> comfortable (gpu32 s) w h.
Proof. intros Hw Hh. unfold comfortable, roomy, W32. cbn. lia. Qed.

(** ** C124: the grid of a launch *)
Definition pair_eq_dec : forall a b : Z * Z, {a = b} + {a <> b}.
Proof. decide equality; apply Z.eq_dec. Defined.

(** The threads of the grid that pass the test [x < w && y < h] of the kernels are exactly
    the samples of the image, each once; the launch is inside the limits of the device. *)
Definition exact_cover (d : device) (g : grid) (w h : Z) : Prop :=
  (forall x y, 0 <= x < w -> 0 <= y < h -> count_occ pair_eq_dec (coords g) (x, y) = 1%nat) /\
  (forall x y, In (x, y) (coords g) -> 0 <= x /\ 0 <= y) /\
  dx (gThreads g) * dy (gThreads g) * dz (gThreads g) <= dMax d /\
  (dx (gThreads g) <= dx (dBlock d) /\ dy (gThreads g) <= dy (dBlock d) /\ dz (gThreads g) <= dz (dBlock d)) /\
  (dx (gBlocks g) <= dx (dGrid d) /\ dy (gBlocks g) <= dy (dGrid d) /\ dz (gBlocks g) <= dz (dGrid d)).

Theorem C124_grid2 d w h : device_ok d -> 0 < w < W32 -> 0 < h < W32 ->
  (exists g, (forall E (e : E), gridParameters2 e d w h = Ok g) /\ launchable d g = true /\ exact_cover d g w h) \/
  (~ comfortable d w h /\ forall sched m k, launch2D d sched m w h k = Throw m).
Proof.
  intros Hd Hw Hh. destruct (grid2_cases d w h Hd Hw Hh) as [[H1 H2]|(g & Hg & Hok & Hc)].
  - right. split; [exact H1|]. intros. unfold launch2D. rewrite H2. reflexivity.
  - destruct (launchable d g) eqn:El.
    + left. exists g. split; [exact Hg|]. split; [exact El|].
      pose proof (grid2_covers d w h g unit tt Hd Hw Hh (Hg _ _) El) as (A1 & A2 & A3 & A4 & A5 & A6 & A7 & A8).
      pose proof El as El'. apply launchable_iff in El' as (B1 & B2 & B3 & B4 & B5 & B6 & B7).
      split; [|split; [|split; [lia|lia]]].
      * intros x y Hx Hy. apply NoDup_count_occ'.
        -- apply NoDup_list_prod; apply axis_NoDup; lia.
        -- apply in_prod; apply axis_In; lia.
      * intros x y H. apply in_prod_iff in H as [P1 P2]. split; eapply axis_nonneg; eassumption.
    + right. split.
      * intros C. destruct (Hc C) as [C1 C2]. rewrite (grid2_launchable d w h g Hd Hok C1 C2) in El. discriminate.
      * intros. unfold launch2D. rewrite Hg. cbn [bind]. rewrite El. reflexivity.
Qed.
Example C124_case : device_ok gpu /\ comfortable gpu 1920 1080 /\
  exists g, gridParameters2 tt gpu 1920 1080 = Ok g /\ gBlocks g = mkDim3 60 34 1 /\ gThreads g = mkDim3 32 32 1.
Proof. split; [apply gpu_ok|]. split; [apply gpu_comfortable; lia|]. eexists. split; [reflexivity|]. split; reflexivity. Qed.
(** An image of more than 65535 * 32 rows is refused. *)
Example C124_refused : gridParameters2 tt gpu 1 2097121 = Throw tt.
Proof. reflexivity. Qed.
Print Assumptions C124_grid2.

Theorem C124_grid1 d n : device_ok d -> 0 < n < W32 ->
  (exists b t, (forall E (e : E), gridParameters1 e d n = Ok (mkGrid (mkDim3 b 1 1) (mkDim3 t 1 1))) /\
     1 <= t <= dMax d /\ t <= dx (dBlock d) /\ 1 <= b <= dx (dGrid d) /\
     (forall x, 0 <= x < n -> count_occ Z.eq_dec (axis b t) x = 1%nat) /\ (forall x, In x (axis b t) -> 0 <= x)) \/
  (~ roomy (dThreads d) (dx (dGrid d)) n /\ forall sched m k, launch1D d sched m n k = Throw m).
Proof.
  intros Hd Hn. destruct (grid1_cases d n Hd Hn) as [[H1 H2]|(b & t & Hg & H)].
  - right. split; [exact H1|]. intros. unfold launch1D. rewrite H2. reflexivity.
  - destruct (launchable d (mkGrid (mkDim3 b 1 1) (mkDim3 t 1 1))) eqn:El.
    + left. exists b, t. pose proof El as El'. apply launchable_iff in El'. cbn [gBlocks gThreads dx dy dz] in El'.
      split; [exact Hg|]. destruct Hd as [D1 D2 D3 D4].
      assert (Ht : 1 <= t <= dMax d) by (clear - H El' D2; intuition nia).
      split; [exact Ht|]. split; [lia|]. split; [lia|].
      split; [|intros x Hx; eapply axis_nonneg; eassumption].
      intros x Hx. apply NoDup_count_occ'; [apply axis_NoDup|apply axis_In]; intuition lia.
    + right. split.
      * intros C. assert (launchable d (mkGrid (mkDim3 b 1 1) (mkDim3 t 1 1)) = true); [|congruence].
        apply launchable_iff. cbn [gBlocks gThreads dx dy dz]. destruct Hd as [D1 D2 (X1 & X2 & X3) (Y1 & Y2 & Y3)].
        intuition nia.
      * intros. unfold launch1D. rewrite Hg. cbn [bind]. rewrite El. reflexivity.
Qed.
Print Assumptions C124_grid1.

(** ** C125: pixelwise functions, under every interleaving *)
Definition cuda_call2 : Type :=
  device -> list nat -> mem -> image -> Z -> Z -> image -> Z -> Z -> image -> Z -> Z -> Z -> Z -> res mem mem.
Definition cuda_two_input_functions : list (cuda_call2 * (Z -> Z -> Z)) :=
  [(cuda_AbsoluteDifference, fun a b => Z.abs (a - b));
   (cuda_BitwiseAnd, Z.land);
   (cuda_BitwiseOr, Z.lor);
   (cuda_BitwiseXor, Z.lxor);
   (cuda_Maximum, Z.max);
   (cuda_Minimum, Z.min);
   (cuda_Subtract, fun a b => Z.max (a - b) 0)].

Lemma cuda_two_input_model F f : In (F, f) cuda_two_input_functions ->
  exists at_ g, F = cuda2 at_ g /\ (at_ = at_ptr \/ at_ = at_idx) /\
    forall a b, 0 <= a < 256 -> 0 <= b < 256 -> g a b = f a b.
Proof.
  unfold cuda_two_input_functions. cbn [In].
  intros [E|[E|[E|[E|[E|[E|[E|[]]]]]]]]; injection E as <- <-; do 2 eexists; (split; [reflexivity|]);
    (split; [auto|]); intros a b Ha Hb; try reflexivity.
  - unfold absdiff_k, u8. destruct (Z.ltb_spec b a); rewrite Z.mod_small; lia.
  - unfold max_k. destruct (Z.ltb_spec b a); lia.
  - unfold min_k. destruct (Z.ltb_spec a b); lia.
  - unfold sub_k, u8. destruct (Z.ltb_spec b a); rewrite Z.mod_small; lia.
Qed.

Theorem C125_two_inputs F f d m in1 x1 y1 in2 x2 y2 out xo yo w h :
  In (F, f) cuda_two_input_functions -> device_ok d ->
  area m in1 x1 y1 w h -> area m in2 x2 y2 w h -> area m out xo yo w h ->
  icc in1 = icc out -> icc in2 = icc out -> bytes m in1 -> bytes m in2 ->
  no_hazard out xo yo in1 x1 y1 w h -> no_hazard out xo yo in2 x2 y2 w h ->
  device_run (comfortable d (w * icc out) h) m (fun s => F d s m in1 x1 y1 in2 x2 y2 out xo yo w h)
    (fun M => writes (@Ok mem mem M) m out xo yo w h
       (fun i j c => f (pixel m in1 (x1 + i) (y1 + j) c) (pixel m in2 (x2 + i) (y2 + j) c))).
Proof.
  intros HF Hd A1 A2 Ao C1 C2 B1 B2 N1 N2. destruct (cuda_two_input_model F f HF) as (at_ & g & -> & Ha & Hg).
  eapply device_run_weak; [|apply (cuda2_run at_ g d m in1 x1 y1 in2 x2 y2 out xo yo w h); assumption].
  intros M HM. eapply writes_ext; [exact HM|]. intros i j c Hi. cbv beta.
  destruct A1, A2. apply Hg; apply (bytes_at m _ _ _ w h); auto; congruence.
Qed.
Example C125_case_separate : device_run (comfortable gpu 9 2) emem
    (fun s => cuda_Subtract gpu s emem (img 1 5 4 3 16) 1 1 (img 2 4 3 3 12) 0 1 (img 3 6 5 3 20) 2 0 3 2)
    (fun M => writes (@Ok mem mem M) emem (img 3 6 5 3 20) 2 0 3 2
       (fun i j c => Z.max (pixel emem (img 1 5 4 3 16) (1 + i) (1 + j) c - pixel emem (img 2 4 3 3 12) (0 + i) (1 + j) c) 0)).
Proof.
  refine (C125_two_inputs cuda_Subtract (fun a b => Z.max (a - b) 0) gpu emem _ _ _ _ _ _ (img 3 6 5 3 20) _ _ 3 2 _ gpu_ok _ _ _ _ _ _ _ _ _);
    try solve_area; try reflexivity; try apply emem_bytes; try (apply hazard_of_disjoint; solve_disjoint).
  do 6 right. left. reflexivity.
Qed.
Example C125_case_in_place : device_run (comfortable gpu 3 2) emem
    (fun s => cuda_Maximum gpu s emem (img 1 5 4 1 8) 1 1 (img 2 4 3 1 4) 0 1 (img 1 5 4 1 8) 1 1 3 2)
    (fun M => writes (@Ok mem mem M) emem (img 1 5 4 1 8) 1 1 3 2
       (fun i j c => Z.max (pixel emem (img 1 5 4 1 8) (1 + i) (1 + j) c) (pixel emem (img 2 4 3 1 4) (0 + i) (1 + j) c))).
Proof.
  refine (C125_two_inputs cuda_Maximum Z.max gpu emem _ _ _ _ _ _ (img 1 5 4 1 8) _ _ 3 2 _ gpu_ok _ _ _ _ _ _ _ _ _);
    try solve_area; try reflexivity; try apply emem_bytes.
  - do 4 right. left. reflexivity.
  - apply (no_hazard_same emem); [solve_wf|solve_roi].
  - apply hazard_of_disjoint; solve_disjoint.
Qed.
Print Assumptions C125_two_inputs.

Theorem C125_invert d m inp xi yi out xo yo w h : device_ok d ->
  area m inp xi yi w h -> area m out xo yo w h -> icc inp = icc out -> bytes m inp -> no_hazard out xo yo inp xi yi w h ->
  device_run (comfortable d (w * icc out) h) m (fun s => cuda_Invert d s m inp xi yi out xo yo w h)
    (fun M => writes (@Ok mem mem M) m out xo yo w h (fun i j c => 255 - pixel m inp (xi + i) (yi + j) c)).
Proof.
  intros Hd A1 Ao C B N. eapply device_run_weak; [|apply (cuda1_run common_cc2 invert_k d m inp xi yi out xo yo w h); auto].
  - intros M HM. eapply writes_ext; [exact HM|]. intros i j c Hi. cbv beta. destruct A1 as [W1 R1].
    pose proof (bytes_at m inp xi yi w h i j c B R1) as P1. rewrite C in P1. specialize (P1 Hi).
    unfold invert_k, u8, Z.lnot. set (v := pixel m inp (xi + i) (yi + j) c) in *. clearbody v.
    symmetry. apply Z.mod_unique with (-1); [|unfold Z.pred]; lia.
  - unfold common_cc2. apply Z.eqb_eq, C.
Qed.
Theorem C125_copy d m inp xi yi out xo yo w h : device_ok d ->
  area m inp xi yi w h -> area m out xo yo w h -> icc inp = icc out -> no_hazard out xo yo inp xi yi w h ->
  device_run (comfortable d (w * icc out) h) m (fun s => cuda_Copy d s m inp xi yi out xo yo w h)
    (fun M => writes (@Ok mem mem M) m out xo yo w h (fun i j c => pixel m inp (xi + i) (yi + j) c)).
Proof. intros. apply (cuda1_run common_cc2 (fun a => a)); auto. apply Z.eqb_eq. assumption. Qed.
Theorem C125_threshold t d m inp xi yi out xo yo w h : device_ok d ->
  area m inp xi yi w h -> area m out xo yo w h -> icc inp = 1 -> icc out = 1 -> no_hazard out xo yo inp xi yi w h ->
  device_run (comfortable d (w * icc out) h) m (fun s => cuda_Threshold t d s m inp xi yi out xo yo w h)
    (fun M => writes (@Ok mem mem M) m out xo yo w h (fun i j c => if t <=? pixel m inp (xi + i) (yi + j) c then 255 else 0)).
Proof.
  intros Hd A1 Ao C Co N. eapply device_run_weak; [|apply (cuda1_run (fun a b => is_gray a && is_gray b) (thr_k t)); auto; try congruence].
  - intros M HM. eapply writes_ext; [exact HM|]. intros i j c Hi. cbv beta. unfold thr_k. rewrite Z.ltb_antisym. destruct (_ <=? _); reflexivity.
  - rewrite !is_gray_true by assumption. reflexivity.
Qed.
Theorem C125_threshold_band lo hi d m inp xi yi out xo yo w h : device_ok d ->
  area m inp xi yi w h -> area m out xo yo w h -> icc inp = 1 -> icc out = 1 -> no_hazard out xo yo inp xi yi w h ->
  device_run (comfortable d (w * icc out) h) m (fun s => cuda_Threshold2 lo hi d s m inp xi yi out xo yo w h)
    (fun M => writes (@Ok mem mem M) m out xo yo w h (fun i j c =>
       if (lo <=? pixel m inp (xi + i) (yi + j) c) && (pixel m inp (xi + i) (yi + j) c <=? hi) then 255 else 0)).
Proof.
  intros Hd A1 Ao C Co N. eapply device_run_weak; [|apply (cuda1_run (fun a b => is_gray a && is_gray b) (thr2_k lo hi)); auto; try congruence].
  - intros M HM. eapply writes_ext; [exact HM|]. intros i j c Hi. cbv beta. unfold thr2_k. set (v := pixel m inp (xi + i) (yi + j) c).
    destruct (Z.ltb_spec v lo), (Z.ltb_spec hi v), (Z.leb_spec lo v), (Z.leb_spec v hi); auto; lia.
  - rewrite !is_gray_true by assumption. reflexivity.
Qed.
(** The table is copied to a block that is not in use. *)
Theorem C125_lookup_table table d m inp xi yi out xo yo w h b : device_ok d ->
  area m inp xi yi w h -> area m out xo yo w h -> icc inp = icc out -> bytes m inp -> length table = 256%nat ->
  no_hazard out xo yo inp xi yi w h -> len m b = 0 ->
  device_run (comfortable d (w * icc out) h) m (fun s => cuda_LookupTable table d (Some b) s m inp xi yi out xo yo w h)
    (fun r => writes (@Ok mem mem (fst r)) m out xo yo w h
       (fun i j c => nth (Z.to_nat (pixel m inp (xi + i) (yi + j) c)) table 0)).
Proof. apply cuda_Lookup_run. Qed.
Theorem C125_fill d m im x y w h v : device_ok d -> area m im x y w h -> icc im = 1 ->
  device_run (comfortable d w h) m (fun s => cuda_Fill d s m im x y w h v)
    (fun M => writes (@Ok mem mem M) m im x y w h (fun _ _ _ => v)).
Proof. apply cuda_Fill_run. Qed.
Theorem C125_flip d m inp xi yi out xo yo w h hor ver : device_ok d ->
  area m inp xi yi w h -> area m out xo yo w h -> icc inp = 1 -> icc out = 1 -> disjoint out xo yo w h inp xi yi w h ->
  device_run (comfortable d w h) m (fun s => cuda_Flip d s m inp xi yi out xo yo w h hor ver)
    (fun M => writes (@Ok mem mem M) m out xo yo w h
       (fun i j _ => pixel m inp (xi + (if hor : bool then w - 1 - i else i)) (yi + (if ver : bool then h - 1 - j else j)) 0)).
Proof. apply cuda_Flip_run. Qed.
Theorem C125_extract_channel d m inp xi yi out xo yo w h ch : device_ok d ->
  area m inp xi yi w h -> area m out xo yo w h -> icc out = 1 -> 0 <= ch < icc inp -> disjoint out xo yo w h inp xi yi w h ->
  device_run (comfortable d w h) m (fun s => cuda_ExtractChannel d s m inp xi yi out xo yo w h ch)
    (fun M => writes (@Ok mem mem M) m out xo yo w h (fun i j _ => pixel m inp (xi + i) (yi + j) ch)).
Proof. apply cuda_Extract_run. Qed.
(** The mean of all channels, rounded down. *)
Theorem C125_to_gray d m inp xi yi out xo yo w h : device_ok d ->
  area m inp xi yi w h -> area m out xo yo w h -> icc inp <> 1 -> icc out = 1 -> bytes m inp ->
  disjoint out xo yo w h inp xi yi w h ->
  device_run (comfortable d w h) m (fun s => cuda_ConvertToGrayScale d s m inp xi yi out xo yo w h)
    (fun M => writes (@Ok mem mem M) m out xo yo w h
       (fun i j _ => zsum (icc inp) (fun c => pixel m inp (xi + i) (yi + j) c) / icc inp)).
Proof. apply cuda_Gray_run. Qed.
Theorem C125_to_rgb d m inp xi yi out xo yo w h : device_ok d ->
  area m inp xi yi w h -> area m out xo yo w h -> icc inp = 1 -> icc out = 3 -> disjoint out xo yo w h inp xi yi w h ->
  device_run (comfortable d w h) m (fun s => cuda_ConvertToRgb d s m inp xi yi out xo yo w h)
    (fun M => writes (@Ok mem mem M) m out xo yo w h (fun i j _ => pixel m inp (xi + i) (yi + j) 0)).
Proof. apply cuda_Rgb_run. Qed.
(** One case for the hypotheses of all of these: RGB input, gray output, gray input; a block
    not in use.  The memory has 8 blocks. *)
Definition emem8 : mem := fun b => if b <? 8 then emem b else mkBlock 0 (fun _ => 0).
Example C125_case_one_input : device_ok gpu /\ area emem8 (img 1 5 4 3 16) 1 1 3 2 /\ area emem8 (img 2 4 3 1 4) 0 1 3 2 /\
  area emem8 (img 3 6 5 1 8) 2 0 3 2 /\ bytes emem8 (img 1 5 4 3 16) /\ len emem8 9 = 0 /\ comfortable gpu 9 2 /\
  disjoint (img 2 4 3 1 4) 0 1 3 2 (img 1 5 4 3 16) 1 1 3 2 /\ disjoint (img 3 6 5 1 8) 2 0 3 2 (img 2 4 3 1 4) 0 1 3 2.
Proof.
  split; [apply gpu_ok|]. do 3 (split; [solve_area|]). split.
  - intros x y c _ _ _. unfold pixel, get, emem8. cbn. apply Z.mod_pos_bound. lia.
  - split; [reflexivity|]. split; [apply gpu_comfortable; lia|]. split; solve_disjoint.
Qed.
Print Assumptions C125_invert.
Print Assumptions C125_copy.
Print Assumptions C125_threshold.
Print Assumptions C125_threshold_band.
Print Assumptions C125_lookup_table.
Print Assumptions C125_fill.
Print Assumptions C125_flip.
Print Assumptions C125_extract_channel.
Print Assumptions C125_to_gray.
Print Assumptions C125_to_rgb.

(** ** C126: results gathered with atomics *)
Definition C126_claim : Prop := forall d m im x y w h b, device_ok d ->
  area m im x y w h -> icc im = 1 -> bytes m im -> len m b = 0 ->
  device_run (comfortable d w h) m (fun s => cuda_Histogram d (Some b) s m im x y w h)
    (fun r => forall v, 0 <= v < 256 -> entry (snd r) v = count_roi w h (fun i j => pixel m im (x + i) (y + j) 0 =? v)).

(** With a stream made by setStreamCount, the copy back does not wait for the kernel. *)
Theorem C126_non_blocking_stream_refuted : ~ C126_claim.
Proof.
  intros H. specialize (H (gpu32 true) emem8 (img 1 1 1 1 1) 0 0 1 1 9 (gpu32_ok true)).
  destruct H as [(n & Hr & _)|[Hr _]].
  - solve_area.
  - reflexivity.
  - intros x y c _ _ _. unfold pixel, get, emem8. cbn. apply Z.mod_pos_bound. lia.
  - reflexivity.
  - assert (E : match cuda_Histogram (gpu32 true) (Some 9) [] emem8 (img 1 1 1 1 1) 0 0 1 1 with
                | Ok r => entry (snd r) 11 =? 0 | _ => false end = true) by (vm_compute; reflexivity).
    destruct (Hr []) as [E'|(r & E' & Q)]; rewrite E' in E; [discriminate|].
    specialize (Q 11 ltac:(lia)). apply Z.eqb_eq in E. rewrite E in Q. vm_compute in Q. discriminate.
  - apply Hr. apply gpu32_comfortable; lia.
Qed.
Print Assumptions C126_non_blocking_stream_refuted.

Theorem C126_histogram_partial d m im x y w h b : device_ok d -> dStreams d = false ->
  area m im x y w h -> icc im = 1 -> bytes m im -> len m b = 0 ->
  device_run (comfortable d w h) m (fun s => cuda_Histogram d (Some b) s m im x y w h)
    (fun r => same_mem m (fst r) /\ length (snd r) = 256%nat /\
       forall v, 0 <= v < 256 -> entry (snd r) v = count_roi w h (fun i j => pixel m im (x + i) (y + j) 0 =? v)).
Proof. apply cuda_Histogram_run. Qed.
Theorem C126_projection_partial d m im x y w h b hor : device_ok d -> dStreams d = false ->
  area m im x y w h -> len m b = 0 ->
  device_run (comfortable d (w * icc im) h) m (fun s => cuda_ProjectionProfile d (Some b) s m im x y w h hor)
    (fun r => same_mem m (fst r) /\
       if hor : bool
       then length (snd r) = Z.to_nat (w * icc im) /\
            forall i c, 0 <= i < w -> 0 <= c < icc im ->
              entry (snd r) (i * icc im + c) = zsum h (fun j => pixel m im (x + i) (y + j) c) mod W32
       else length (snd r) = Z.to_nat h /\
            forall j, 0 <= j < h -> entry (snd r) j =
              zsum w (fun i => zsum (icc im) (fun c => pixel m im (x + i) (y + j) c)) mod W32).
Proof. apply cuda_Projection_run. Qed.
Theorem C126_is_equal_partial d m in1 x1 y1 in2 x2 y2 w h b : device_ok d -> dStreams d = false ->
  area m in1 x1 y1 w h -> area m in2 x2 y2 w h -> icc in1 = icc in2 -> len m b = 0 ->
  device_run (comfortable d (w * icc in1) h) m (fun s => cuda_IsEqual d (Some b) s m in1 x1 y1 in2 x2 y2 w h)
    (fun r => same_mem m (fst r) /\
       (snd r = true <-> forall i j c, inside w h (icc in1) i j c ->
          pixel m in1 (x1 + i) (y1 + j) c = pixel m in2 (x2 + i) (y2 + j) c)).
Proof. apply cuda_IsEqual_run. Qed.
Example C126_case : device_ok gpu /\ dStreams gpu = false /\ area emem8 (img 1 5 4 1 8) 1 1 3 2 /\
  area emem8 (img 2 4 3 1 4) 0 1 3 2 /\ bytes emem8 (img 1 5 4 1 8) /\ len emem8 9 = 0 /\ comfortable gpu 3 2.
Proof.
  split; [apply gpu_ok|]. split; [reflexivity|]. do 2 (split; [solve_area|]). split.
  - intros x y c _ _ _. unfold pixel, get, emem8. cbn. apply Z.mod_pos_bound. lia.
  - split; [reflexivity|]. apply gpu_comfortable; lia.
Qed.
Print Assumptions C126_histogram_partial.
Print Assumptions C126_projection_partial.
Print Assumptions C126_is_equal_partial.

(** ** C127: SetPixel *)
Definition C127_claim : Prop := forall d m im x y v, device_ok d -> wf m im -> 0 <= x < iw im -> 0 <= y < ih im -> 0 <= v < 256 ->
  device_run (roomy (dThreads d) (dx (dGrid d)) 1) m (fun s => cuda_SetPixel d s m im x y v)
    (fun M => pixel M im x y 0 = v /\ (forall p, p <> px im x y 0 -> get M p = get m p)).

Theorem C127_colour_image_refuted : ~ C127_claim.
Proof.
  intros H. specialize (H (gpu32 false) emem (img 1 2 1 3 6) 1 0 0 (gpu32_ok false)).
  destruct H as [(n & Hr & _)|[Hr _]]; try (cbn; lia).
  - solve_wf.
  - assert (E : match cuda_SetPixel (gpu32 false) (seq 0 32) emem (img 1 2 1 3 6) 1 0 0 with
                | Ok M => get M (1, 1) =? 0 | _ => false end = true) by (vm_compute; reflexivity).
    destruct (Hr (seq 0 32)) as [E'|(r & E' & Q1 & Q2)]; rewrite E' in E; [discriminate|].
    specialize (Q2 (1, 1)). apply Z.eqb_eq in E. rewrite E in Q2.
    assert (0 = get emem (1, 1)) by (apply Q2; unfold px; cbn; congruence). discriminate.
  - apply Hr. unfold roomy, W32. cbn. lia.
Qed.
Print Assumptions C127_colour_image_refuted.

Lemma byte_at_px im x y : icc im = 1 -> byte_at im x y = px im x y 0.
Proof. intros C. unfold byte_at, px. rewrite C. f_equal. lia. Qed.
Theorem C127_set_pixel_partial d m im x y v : device_ok d -> wf m im -> icc im = 1 -> 0 <= x < iw im -> 0 <= y < ih im ->
  device_run (roomy (dThreads d) (dx (dGrid d)) 1) m (fun s => cuda_SetPixel d s m im x y v)
    (fun M => pixel M im x y 0 = v /\ (forall p, p <> px im x y 0 -> get M p = get m p) /\ (forall b, len M b = len m b)).
Proof.
  intros Hd W C Hx Hy. unfold pixel. rewrite <- (byte_at_px im x y C). apply cuda_SetPixel_run; assumption.
Qed.
Theorem C127_set_pixels_partial d m im X Y v b1 b2 : device_ok d -> wf m im -> icc im = 1 -> length X = length Y -> X <> [] ->
  Z.of_nat (length X) < W32 -> (forall x y, In (x, y) (combine X Y) -> 0 <= x < iw im /\ 0 <= y < ih im) ->
  len m b1 = 0 -> len m b2 = 0 -> b1 <> b2 -> 0 <= v < 256 ->
  device_run (roomy (dThreads d) (dx (dGrid d)) (Z.of_nat (length X))) m
    (fun s => cuda_SetPixels d (Some b1) (Some b2) s m im X Y v)
    (fun r => (forall x y, In (x, y) (combine X Y) -> pixel (fst r) im x y 0 = v) /\
       (forall p, (forall x y, In (x, y) (combine X Y) -> p <> px im x y 0) -> get (fst r) p = get m p) /\
       (forall b, len (fst r) b = len m b)).
Proof.
  intros Hd W C HL Hne Hn Hin H1 H2 Hb Hv.
  eapply device_run_weak; [|apply cuda_SetPixels_run; eassumption].
  intros r (Q1 & Q2 & Q3). split; [|split; [|exact Q3]].
  - intros x y Hxy. unfold pixel. rewrite <- byte_at_px by assumption. rewrite Q1 by assumption. unfold u8. apply Z.mod_small. lia.
  - intros p Hp. apply Q2. intros x y Hxy. rewrite byte_at_px by assumption. apply Hp, Hxy.
Qed.
(** A point outside is refused before anything is written, also in a list: unlike
    Image_Function::SetPixel (C27). *)
Theorem C127_outside_refused d m im x y v sched : wf m im -> iw im <= x \/ ih im <= y ->
  cuda_SetPixel d sched m im x y v = Throw m.
Proof.
  intros W Ho. unfold cuda_SetPixel. rewrite (valid_image_ok m) by assumption.
  destruct (Z.leb_spec (iw im) x), (Z.leb_spec (ih im) y); try reflexivity; lia.
Qed.
Theorem C127_list_all_or_nothing d m im X Y v b1 b2 sched : wf m im -> length X = length Y ->
  (exists x y, In (x, y) (combine X Y) /\ (iw im <= x \/ ih im <= y)) ->
  cuda_SetPixels d b1 b2 sched m im X Y v = Throw m.
Proof.
  intros W L (x & y & Hin & Ho). unfold cuda_SetPixels. rewrite (valid_image_ok m), L, Nat.eqb_refl by assumption.
  destruct (Nat.eqb_spec (length Y) 0) as [E|E].
  { destruct Y; [|discriminate]. destruct X; [destruct Hin|discriminate]. }
  destruct (forallb _ (combine X Y)) eqn:Ef; [|reflexivity]. exfalso.
  rewrite forallb_forall in Ef. specialize (Ef _ Hin). cbn [fst snd] in Ef.
  destruct (Z.leb_spec (iw im) x), (Z.leb_spec (ih im) y); cbn in Ef; try discriminate; lia.
Qed.
Example C127_case : wf emem8 (img 1 5 4 1 8) /\ icc (img 1 5 4 1 8) = 1 /\
  (forall x y, In (x, y) (combine [3; 4; 0] [1; 2; 3]) -> 0 <= x < 5 /\ 0 <= y < 4) /\ len emem8 9 = 0 /\ len emem8 10 = 0 /\
  roomy (dThreads gpu) (dx (dGrid gpu)) 3.
Proof.
  split; [solve_wf|]. split; [reflexivity|]. split.
  - cbn [combine In]. intros x y [E|[E|[E|[]]]]; injection E as <- <-; lia.
  - split; [reflexivity|]. split; [reflexivity|]. unfold roomy, W32. cbn. lia.
Qed.
Example C127_refused_case : cuda_SetPixels gpu (Some 9) (Some 10) [] emem8 (img 1 5 4 1 8) [3; 5] [1; 2] 7 = Throw emem8.
Proof. apply C127_list_all_or_nothing; [solve_wf|reflexivity|]. exists 5, 2. cbn. split; [auto|left; lia]. Qed.
Print Assumptions C127_set_pixel_partial.
Print Assumptions C127_set_pixels_partial.
Print Assumptions C127_outside_refused.
Print Assumptions C127_list_all_or_nothing.

(** ** C128: copies between host and device *)
(** A library image with alignment 1 has no padding. *)
Definition built (im : image) : Prop := ial im = 1 -> unpadded im.
Definition C128_claim : Prop := forall m inp out, wf m inp -> wf m out -> built inp -> built out ->
  iw inp = iw out -> ih inp = ih out -> icc inp = icc out ->
  disjoint out 0 0 (iw out) (ih out) inp 0 0 (iw out) (ih out) ->
  writes (ConvertToCuda m inp out) m out 0 0 (iw out) (ih out) (fun i j c => pixel m inp i j c).
Definition C128_back_claim : Prop := forall m inp out, wf m inp -> wf m out -> built inp -> built out ->
  iw inp = iw out -> ih inp = ih out -> icc inp = icc out ->
  disjoint out 0 0 (iw out) (ih out) inp 0 0 (iw out) (ih out) ->
  writes (ConvertFromCuda m inp out) m out 0 0 (iw out) (ih out) (fun i j c => pixel m inp i j c).
(** An image of alignment 4. *)
Definition img4 (b w h cc rs : Z) : image := mkImage w h cc 4 rs (Some (b, 0)) 0.
(** Host image without padding, device image of alignment 4: the rows are sheared. *)
Theorem C128_to_device_refuted : ~ C128_claim.
Proof.
  intros H. specialize (H emem (img 1 3 2 1 3) (img4 2 3 2 1 4)).
  destruct H as (m' & He & Hv & _); try solve_wf; try reflexivity; try (intros E; discriminate E); try (intros _; reflexivity).
  - solve_disjoint.
  - specialize (Hv 0 1 0). assert (Hin : inside 3 2 1 0 1 0) by (unfold inside; lia). specialize (Hv Hin).
    assert (E : match ConvertToCuda emem (img 1 3 2 1 3) (img4 2 3 2 1 4) with
                | Ok M => pixel M (img4 2 3 2 1 4) 0 1 0 =? pixel emem (img 1 3 2 1 3) 0 1 0 | _ => true end = false)
      by (vm_compute; reflexivity).
    rewrite He in E. apply Z.eqb_neq in E. apply E. exact Hv.
Qed.
(** Device image of alignment 4, host image without padding: the copy runs past the end of
    the host buffer (6 bytes). *)
Definition c128_mem : mem := fun b => mkBlock (if b =? 2 then 6 else 8) (fun o => o).
Theorem C128_from_device_refuted : ~ C128_back_claim.
Proof.
  intros H. specialize (H c128_mem (img4 1 3 2 1 4) (img 2 3 2 1 3)).
  destruct H as (m' & He & _ & _); try solve_wf; try reflexivity; try (intros E; discriminate E); try (intros _; reflexivity).
  - solve_disjoint.
  - assert (E : match ConvertFromCuda c128_mem (img4 1 3 2 1 4) (img 2 3 2 1 3) with UB => true | _ => false end = true)
      by (vm_compute; reflexivity).
    rewrite He in E. discriminate E.
Qed.
Theorem C128_from_device_overflows : ConvertFromCuda c128_mem (img4 1 3 2 1 4) (img 2 3 2 1 3) = UB.
Proof. vm_compute. reflexivity. Qed.
Print Assumptions C128_to_device_refuted.
Print Assumptions C128_from_device_refuted.
Print Assumptions C128_from_device_overflows.

(** Right whenever the device image has no padding (as ImageCuda().generate makes it) or the
    host image has padding. *)
Theorem C128_to_device_partial m inp out : wf m inp -> wf m out -> built inp ->
  iw inp = iw out -> ih inp = ih out -> icc inp = icc out ->
  disjoint out 0 0 (iw out) (ih out) inp 0 0 (iw out) (ih out) ->
  unpadded out \/ ~ unpadded inp ->
  writes (ConvertToCuda m inp out) m out 0 0 (iw out) (ih out) (fun i j c => pixel m inp i j c).
Proof.
  intros W1 Wo B Ew Eh Ec D L. unfold ConvertToCuda. rewrite !(valid_image_ok m) by assumption. cbn [andb].
  assert (Eu : u32 (iw inp * icc inp) = iw inp * icc inp).
  { pose proof (wf_rs _ _ W1). pose proof (wf_size _ _ W1). pose proof (wf_h _ _ W1). pose proof (wf_w _ _ W1).
    pose proof (wf_cc_pos _ _ W1). apply u32_small. nia. }
  assert (G : (iw inp =? iw out) && (ih inp =? ih out) && (icc inp =? icc out) = true)
    by (rewrite Ew, Eh, Ec, !Z.eqb_refl; reflexivity).
  rewrite Eu, G.
  destruct (Z.eqb_spec (ial inp) 1) as [E1|E1]; cbn [orb]; [|destruct (Z.eqb_spec (irs inp) (iw inp * icc inp)) as [E2|E2]].
  - specialize (B E1). apply memcpy1D_writes; auto. tauto.
  - assert (B' : unpadded inp) by exact E2. apply memcpy1D_writes; auto. tauto.
  - apply memcpy2D_writes; auto.
Qed.
Theorem C128_from_device_partial m inp out : wf m inp -> wf m out -> built out ->
  iw inp = iw out -> ih inp = ih out -> icc inp = icc out ->
  disjoint out 0 0 (iw out) (ih out) inp 0 0 (iw out) (ih out) ->
  unpadded inp \/ ~ unpadded out ->
  writes (ConvertFromCuda m inp out) m out 0 0 (iw out) (ih out) (fun i j c => pixel m inp i j c).
Proof.
  intros W1 Wo B Ew Eh Ec D L. unfold ConvertFromCuda. rewrite !(valid_image_ok m) by assumption. cbn [andb].
  assert (Eu : u32 (iw out * icc out) = iw out * icc out).
  { pose proof (wf_rs _ _ Wo). pose proof (wf_size _ _ Wo). pose proof (wf_h _ _ Wo). pose proof (wf_w _ _ Wo).
    pose proof (wf_cc_pos _ _ Wo). apply u32_small. nia. }
  assert (G : (iw inp =? iw out) && (ih inp =? ih out) && (icc inp =? icc out) = true)
    by (rewrite Ew, Eh, Ec, !Z.eqb_refl; reflexivity).
  rewrite Eu, G.
  destruct (Z.eqb_spec (ial out) 1) as [E1|E1]; cbn [orb]; [|destruct (Z.eqb_spec (irs out) (iw out * icc out)) as [E2|E2]].
  - specialize (B E1). apply memcpy1D_writes; auto. tauto.
  - assert (B' : unpadded out) by exact E2. apply memcpy1D_writes; auto. tauto.
  - apply memcpy2D_writes; auto.
Qed.
(** Host to device and back. *)
Theorem C128_round_trip_partial m host dev back : wf m host -> wf m dev -> wf m back -> built host -> built back -> unpadded dev ->
  iw host = iw dev -> ih host = ih dev -> icc host = icc dev -> iw dev = iw back -> ih dev = ih back -> icc dev = icc back ->
  disjoint dev 0 0 (iw dev) (ih dev) host 0 0 (iw dev) (ih dev) ->
  disjoint back 0 0 (iw back) (ih back) dev 0 0 (iw back) (ih back) ->
  exists m1 m2, ConvertToCuda m host dev = Ok m1 /\ ConvertFromCuda m1 dev back = Ok m2 /\
    forall i j c, inside (iw host) (ih host) (icc host) i j c -> pixel m2 back i j c = pixel m host i j c.
Proof.
  intros W1 Wd Wb B1 Bb U E1 E2 E3 F1 F2 F3 D1 D2.
  destruct (C128_to_device_partial m host dev W1 Wd B1 E1 E2 E3 D1 (or_introl U)) as (m1 & H1 & V1 & L1 & _).
  destruct (C128_from_device_partial m1 dev back) as (m2 & H2 & V2 & _); auto;
    try (apply (wf_same_len m); assumption).
  exists m1, m2. split; [exact H1|]. split; [exact H2|]. intros i j c Hi.
  specialize (V2 i j c). rewrite !Z.add_0_l in V2. rewrite V2 by (rewrite <- F1, <- F2, <- F3, <- E1, <- E2, <- E3; exact Hi).
  specialize (V1 i j c). rewrite !Z.add_0_l in V1. apply V1. rewrite <- E1, <- E2, <- E3. exact Hi.
Qed.
Example C128_case : wf emem (img4 1 3 2 1 4) /\ wf emem (img 2 3 2 1 3) /\ built (img4 1 3 2 1 4) /\ unpadded (img 2 3 2 1 3) /\
  disjoint (img 2 3 2 1 3) 0 0 3 2 (img4 1 3 2 1 4) 0 0 3 2 /\ disjoint (img4 3 3 2 1 4) 0 0 3 2 (img 2 3 2 1 3) 0 0 3 2.
Proof.
  split; [solve_wf|]. split; [solve_wf|]. split; [intros E; discriminate E|]. split; [reflexivity|]. split; solve_disjoint.
Qed.
Print Assumptions C128_to_device_partial.
Print Assumptions C128_from_device_partial.
Print Assumptions C128_round_trip_partial.

(** ** C129: setThreadsPerBlock *)
Definition C129_claim : Prop := forall d count d', device_ok d -> dMax d < 1073741824 -> 0 <= count < W32 ->
  setThreadsPerBlock d count = Ok d' -> device_ok d'.
(** 2^31 is a multiple of 32 and is accepted: as int it is negative. *)
Theorem C129_negative_count_refuted : ~ C129_claim.
Proof.
  intros H. destruct (H gpu 2147483648 (mkDevice 2147483648 1024 (dBlock gpu) (dGrid gpu) false) gpu_ok) as [H1 _ _ _].
  - cbn. lia.
  - unfold W32. lia.
  - reflexivity.
  - cbn in H1. lia.
Qed.
(** From then on no 2D launch is ever configured: the search for the side of a block does not
    end, whatever the number of iterations. *)
Lemma side_zero {E} total : 0 <= total -> forall fuel c, @side_loop E fuel 2 total (c, 0) = Timeout.
Proof.
  intros Ht. induction fuel as [|fuel IH]; intros c; unfold side_loop; cbn [loop fst snd]; [reflexivity|].
  destruct (Z.leb_spec 0 total); [|lia]. cbn [bind]. apply IH.
Qed.
Theorem C129_search_never_ends : forall E fuel, @get2DThreadsPerBlock E fuel 2147483648 = Timeout.
Proof.
  intros E fuel. unfold get2DThreadsPerBlock.
  assert (H : @side_loop E fuel 2 2147483648 (1, 4) = Timeout); [|rewrite H; reflexivity].
  assert (Hs : forall n c o, o <= 2147483648 -> (forall k, @side_loop E k 2 2147483648 (u32 (Z.shiftl c 1), u32 (Z.shiftl o 2)) = Timeout) ->
    @side_loop E n 2 2147483648 (c, o) = Timeout).
  { intros n c o Ho Hk. destruct n as [|n]; [reflexivity|]. unfold side_loop. cbn [loop fst snd].
    destruct (Z.leb_spec o 2147483648); [|lia]. cbn [bind]. apply Hk. }
  revert fuel.
  do 15 (intros ?n; apply Hs; [lia|];
    match goal with |- context [(u32 (Z.shiftl ?c 1), u32 (Z.shiftl ?o 2))] =>
      let c' := eval vm_compute in (u32 (Z.shiftl c 1)) in let o' := eval vm_compute in (u32 (Z.shiftl o 2)) in
      change (u32 (Z.shiftl c 1)) with c'; change (u32 (Z.shiftl o 2)) with o' end).
  intros fuel'. apply side_zero. lia.
Qed.
Theorem C129_set_threads_partial d count d' : device_ok d -> dMax d < 1073741824 -> 0 <= count < 2147483648 ->
  setThreadsPerBlock d count = Ok d' ->
  device_ok d' /\ dThreads d' <= dMax d /\ dMax d' = dMax d /\ (dThreads d' = count \/ (dMax d < count /\ d' = d)).
Proof.
  intros [[T1 T2] T3 T4 T5] Hm Hc H. unfold setThreadsPerBlock in H.
  destruct (Z.eqb_spec count 0) as [E|E]; [discriminate|]. cbn [orb] in H.
  destruct (negb (count mod 32 =? 0)); [discriminate|]. cbn [negb] in H. injection H as <-.
  unfold to_int32. destruct (Z.ltb_spec count 2147483648); [|lia]. destruct (Z.ltb_spec (dMax d) 2147483648); [|lia].
  destruct (Z.leb_spec count (dMax d)).
  - rewrite u32_small by (unfold W32; lia). split; [constructor; cbn; auto; lia|]. cbn. auto.
  - split; [constructor; auto|]. split; [lia|]. split; [reflexivity|]. right. split; [lia|reflexivity].
Qed.
Theorem C129_bad_count_refused d count : count = 0 \/ count mod 32 <> 0 -> setThreadsPerBlock d count = Throw d.
Proof.
  intros H. unfold setThreadsPerBlock. destruct (Z.eqb_spec count 0); [reflexivity|]. cbn [orb].
  destruct (Z.eqb_spec (count mod 32) 0); [|reflexivity]. destruct H; contradiction.
Qed.
Example C129_case : setThreadsPerBlock gpu 256 = Ok (mkDevice 256 1024 (dBlock gpu) (dGrid gpu) false) /\
  setThreadsPerBlock gpu 2048 = Ok gpu /\ setThreadsPerBlock gpu 100 = Throw gpu.
Proof. repeat split. Qed.
Print Assumptions C129_negative_count_refuted.
Print Assumptions C129_search_never_ends.
Print Assumptions C129_set_threads_partial.
Print Assumptions C129_bad_count_refused.

(** ** C130: three-dimensional grids *)
Definition C130_claim : Prop := forall d x y z g, device_ok d -> 0 < x < W32 -> 0 < y < W32 -> 0 < z < W32 ->
  gridParameters3 tt d x y z = Ok g ->
  dx (gThreads g) * dy (gThreads g) * dz (gThreads g) <= dMax d.
(** A device that allows at most 1024 x 8 x 4 threads in a block and 1024 threads in all:
    the block becomes 128 x 8 x 4. *)
Definition flat_gpu : device := mkDevice 1024 1024 (mkDim3 1024 8 4) (mkDim3 2147483647 65535 65535) false.
Theorem C130_block_too_large_refuted : ~ C130_claim.
Proof.
  intros H. specialize (H flat_gpu 64 64 64 (mkGrid (mkDim3 1 8 16) (mkDim3 128 8 4))).
  assert (device_ok flat_gpu) by (constructor; cbn; unfold dim_pos; cbn; lia).
  unfold W32 in H. specialize (H ltac:(assumption) ltac:(lia) ltac:(lia) ltac:(lia) eq_refl). cbn in H. lia.
Qed.
Print Assumptions C130_block_too_large_refuted.

(** The search for the side of a cube. *)
Lemma side3_spec n : forall k total, 1 <= total < 1073741824 -> (n + k = 10)%nat ->
  (k = 0%nat \/ 8 ^ Z.of_nat k <= total) ->
  exists c, (forall E : Type, exists o, @side_loop E (S n) 3 total (2 ^ Z.of_nat k, 8 * 8 ^ Z.of_nat k) = Ok (c, o)) /\
    1 <= c /\ (c = 1 \/ c * c * c <= total).
Proof.
  induction n as [|n IH]; intros k total Ht Hn Hc.
  - assert (k = 10)%nat by lia. subst k. destruct Hc as [Hc|Hc]; [lia|]. change (8 ^ Z.of_nat 10) with 1073741824 in Hc. lia.
  - destruct (Z_le_gt_dec (8 * 8 ^ Z.of_nat k) total) as [Hle|Hgt].
    + assert (E2 : 2 ^ Z.of_nat (S k) = 2 * 2 ^ Z.of_nat k) by (rewrite Nat2Z.inj_succ, Z.pow_succ_r by lia; reflexivity).
      assert (E8 : 8 ^ Z.of_nat (S k) = 8 * 8 ^ Z.of_nat k) by (rewrite Nat2Z.inj_succ, Z.pow_succ_r by lia; reflexivity).
      assert (P2 : 0 < 2 ^ Z.of_nat k) by (apply Z.pow_pos_nonneg; lia).
      assert (P8 : 2 ^ Z.of_nat k <= 8 ^ Z.of_nat k) by (apply Z.pow_le_mono_l; lia).
      destruct (Z_lt_le_dec (8 * (8 * 8 ^ Z.of_nat k)) W32) as [Hs|Hs].
      * destruct (IH (S k) total) as (c & Hl & H1 & H2); [assumption|lia|right; lia|].
        exists c. split; [|split; assumption]. intros E. destruct (Hl E) as (o & Ho). exists o. rewrite <- Ho.
        unfold side_loop. cbn [loop fst snd]. destruct (Z.leb_spec (8 * 8 ^ Z.of_nat k) total); [|lia].
        cbn [bind]. rewrite Z.shiftl_mul_pow2, Z.shiftl_mul_pow2 by lia. change (2 ^ 1) with 2. change (2 ^ 3) with 8.
        pose proof W32_val as HW. rewrite !u32_small by lia.
        replace (2 ^ Z.of_nat k * 2) with (2 ^ Z.of_nat (S k)) by lia.
        replace (8 * 8 ^ Z.of_nat k * 8) with (8 * 8 ^ Z.of_nat (S k)) by lia. reflexivity.
      * exfalso. assert (Hk : (k <= 8)%nat \/ k = 9%nat) by lia. destruct Hk as [Hk| ->].
        -- assert (8 ^ Z.of_nat k <= 8 ^ 8) by (apply Z.pow_le_mono_r; lia). change (8 ^ 8) with 16777216 in *. unfold W32 in *. lia.
        -- change (8 ^ Z.of_nat 9) with 134217728 in *. lia.
    + exists (2 ^ Z.of_nat k). assert (E8 : 8 ^ Z.of_nat k = 2 ^ Z.of_nat k * 2 ^ Z.of_nat k * 2 ^ Z.of_nat k).
      { change 8 with (2 * 2 * 2). rewrite !Z.pow_mul_l. reflexivity. }
      split; [|split].
      * intros E. eexists. unfold side_loop. cbn [loop fst snd]. destruct (Z.leb_spec (8 * 8 ^ Z.of_nat k) total); [lia|]. reflexivity.
      * assert (0 < 2 ^ Z.of_nat k) by (apply Z.pow_pos_nonneg; lia). lia.
      * rewrite <- E8. destruct Hc as [->|Hc]; [left; reflexivity|right; exact Hc].
Qed.
(** The block before the limits of the device are looked at. *)
Theorem C130_block3 total : 1 <= total < 1073741824 ->
  exists t, (forall E : Type, @get3DThreadsPerBlock E side_fuel total = Ok t) /\ dim_pos t /\ dx t * dy t * dz t <= total /\
    (dz t = 1 \/ dz t * dz t * dz t <= total).
Proof.
  intros Ht. destruct (side3_spec 10 0 total) as (c & E1 & H1 & H2); try lia; auto.
  assert (Hc : 1 <= c <= total) by nia.
  assert (Hq : 1 <= total / c) by (apply Z.div_le_lower_bound; lia).
  assert (Hq2 : total / c <= total) by (apply Z.div_le_upper_bound; nia).
  destruct (get2D_ok (total / c)) as (c2 & E2 & H3 & H4); [lia|].
  exists (mkDim3 (total / c / c2) c2 c). split; [|].
  - intros E. unfold get3DThreadsPerBlock. destruct (E1 E) as (o & Eo).
    assert (E3 : @side_loop E side_fuel 3 total (1, 8) = Ok (c, o)).
    { unfold side_loop in *. change side_fuel with (11 + 53)%nat. apply loop_more. exact Eo. }
    rewrite E3. cbn [bind]. destruct (Z.eqb_spec c 0); [lia|]. rewrite E2. reflexivity.
  - unfold dim_pos. cbn [dx dy dz]. assert (1 <= total / c / c2) by (apply Z.div_le_lower_bound; lia).
    pose proof (Z.mul_div_le (total / c) c2 ltac:(lia)). pose proof (Z.mul_div_le total c ltac:(lia)).
    split; [lia|]. split; [nia|exact H2].
Qed.
(** When the device allows that block in every direction, the grid is within the limits and
    covers each axis; or the request is refused. *)
Theorem C130_grid3_partial d x y z t : device_ok d -> 0 < x < W32 -> 0 < y < W32 -> 0 < z < W32 ->
  get3DThreadsPerBlock side_fuel (dThreads d) = @Ok unit _ t ->
  dx t <= dx (dBlock d) -> dy t <= dy (dBlock d) -> dz t <= dz (dBlock d) ->
  gridParameters3 tt d x y z = Throw tt \/
  exists g, gridParameters3 tt d x y z = Ok g /\ gThreads g = t /\
    dx (gThreads g) * dy (gThreads g) * dz (gThreads g) <= dMax d /\
    (launchable d g = true ->
     forall axis_ size, In (axis_, size) [(axis (dx (gBlocks g)) (dx t), x); (axis (dy (gBlocks g)) (dy t), y); (axis (dz (gBlocks g)) (dz t), z)] ->
       (forall k, 0 <= k < size -> count_occ Z.eq_dec axis_ k = 1%nat)).
Proof.
  intros Hd Hx Hy Hz Et Lx Ly Lz. pose proof Hd as [Ht Hm HB (Gx & Gy & Gz)].
  destruct (C130_block3 (dThreads d) Ht) as (t' & Et' & (Px & Py & Pz) & Pt & _).
  rewrite (Et' unit) in Et. injection Et as ->.
  assert (Ea : @adjust3DThreadsPerBlock unit (dThreads d) (dBlock d) t = Ok t).
  { unfold adjust3DThreadsPerBlock, adjust2DThreadsPerBlock. destruct (Z.ltb_spec (dz (dBlock d)) (dz t)); [lia|]. cbn [bind].
    destruct (Z.ltb_spec (dy (dBlock d)) (dy t)); [lia|]. cbn [bind]. destruct (Z.ltb_spec (dx (dBlock d)) (dx t)); [lia|]. reflexivity. }
  unfold gridParameters3. rewrite Et'. cbn [bind]. rewrite Ea. cbn [bind].
  destruct (Z.ltb_spec (u32 (dx t * dx (dGrid d))) x) as [H1|H1]; [left; reflexivity|].
  destruct (Z.ltb_spec (u32 (dy t * dy (dGrid d))) y) as [H2|H2]; [left; reflexivity|].
  destruct (Z.ltb_spec (u32 (dz t * dz (dGrid d))) z) as [H3|H3]; [left; reflexivity|]. cbn [orb negb].
  destruct (blocks_ok x (dx t) (dx (dGrid d))) as (bx & Ex & X1 & X2 & X3 & X4); try lia.
  destruct (blocks_ok y (dy t) (dy (dGrid d))) as (by_ & Ey & Y1 & Y2 & Y3 & Y4); try lia.
  destruct (blocks_ok z (dz t) (dz (dGrid d))) as (bz & Ez & Z1 & Z2 & Z3 & Z4); try lia.
  right. rewrite Ex, Ey, Ez. cbn [bind]. eexists. split; [reflexivity|]. cbn [gThreads gBlocks dx dy dz].
  split; [reflexivity|]. split; [lia|]. intros L a s Hin k Hk. apply launchable_iff in L. cbn [gThreads gBlocks dx dy dz] in L.
  destruct Hin as [E|[E|[E|[]]]]; injection E as <- <-; (apply NoDup_count_occ'; [apply axis_NoDup|apply axis_In]; intuition lia).
Qed.
Example C130_case : get3DThreadsPerBlock side_fuel (dThreads gpu) = @Ok unit _ (mkDim3 16 8 8) /\
  gridParameters3 tt gpu 100 100 10 = Ok (mkGrid (mkDim3 7 13 2) (mkDim3 16 8 8)).
Proof. split; vm_compute; reflexivity. Qed.
Print Assumptions C130_block3.
Print Assumptions C130_grid3_partial.

(** ** C131: the processor and the device agree *)
(** A finished device call leaves the memory that the processor version leaves. *)
Definition agree (d : device) (w h : Z) (m : mem) (cpu : res mem mem) (gpu : list nat -> res mem mem) : Prop :=
  exists M, cpu = Ok M /\ device_run (comfortable d w h) m gpu (fun M' => forall p, get M' p = get M p).

Definition C131_claim : Prop := forall d m im x y w h v, device_ok d -> area m im x y w h -> 0 <= v < 256 ->
  agree d (w * icc im) h m (Fill m im x y w h v) (fun s => cuda_Fill d s m im x y w h v).
(** Fill accepts a colour image on the processor, not on the device. *)
Theorem C131_fill_colour_refuted : ~ C131_claim.
Proof.
  intros H. destruct (H gpu emem (img 1 5 4 3 16) 1 1 3 2 7 gpu_ok) as (M & _ & [(n & _ & K & HK)|[Hr _]]).
  - solve_area.
  - lia.
  - (* every schedule throws *)
    destruct (H gpu emem (img 1 5 4 3 16) 1 1 3 2 7 gpu_ok) as (M' & _ & [(n' & Hr & _)|[Hr _]]); [solve_area|lia| |apply Hr; apply gpu_comfortable; cbn; lia].
    destruct (Hr []) as [E|(r & E & _)]; unfold cuda_Fill in E; cbn in E; discriminate.
  - apply Hr. apply gpu_comfortable; cbn; lia.
Qed.
(** Threshold with two bounds in the wrong order: refused by the processor, all zero on the device. *)
Theorem C131_threshold_band_refuted :
  Threshold2 200 100 emem (img 1 5 4 1 8) 0 0 (img 2 5 4 1 8) 0 0 5 4 = Throw emem /\
  device_run (comfortable gpu 5 4) emem (fun s => cuda_Threshold2 200 100 gpu s emem (img 1 5 4 1 8) 0 0 (img 2 5 4 1 8) 0 0 5 4)
    (fun M => writes (@Ok mem mem M) emem (img 2 5 4 1 8) 0 0 5 4 (fun _ _ _ => 0)).
Proof.
  split.
  - apply C03_threshold_band_rejects. lia.
  - pose proof (C125_threshold_band 200 100 gpu emem (img 1 5 4 1 8) 0 0 (img 2 5 4 1 8) 0 0 5 4 gpu_ok) as H.
    eapply device_run_weak; [|apply H; try solve_area; try reflexivity; apply hazard_of_disjoint; solve_disjoint].
    intros M HM. eapply writes_ext; [exact HM|]. intros i j c _. cbv beta.
    set (v := pixel emem (img 1 5 4 1 8) (0 + i) (0 + j) c). destruct (Z.leb_spec 200 v), (Z.leb_spec v 100); auto; lia.
Qed.
Print Assumptions C131_fill_colour_refuted.
Print Assumptions C131_threshold_band_refuted.

(** Two runs that write the same values into the same region leave the same memory. *)
Lemma roi_cell_dec im x y w h p :
  (exists i j c, inside w h (icc im) i j c /\ px im (x + i) (y + j) c = p) \/
  (forall i j c, inside w h (icc im) i j c -> px im (x + i) (y + j) c <> p).
Proof.
  set (l := flat_map (fun i => flat_map (fun j => map (fun c => px im (x + i) (y + j) c) (zrange (icc im))) (zrange h)) (zrange w)).
  assert (Hl : forall q, In q l <-> exists i j c, inside w h (icc im) i j c /\ px im (x + i) (y + j) c = q).
  { intros q. unfold l. rewrite in_flat_map. split.
    - intros (i & Hi & H). apply in_flat_map in H as (j & Hj & H). apply in_map_iff in H as (c & E & Hc).
      apply zrange_In in Hi, Hj, Hc. exists i, j, c. split; [unfold inside; lia|exact E].
    - intros (i & j & c & (Hi & Hj & Hc) & E). exists i. split; [apply zrange_In; lia|]. apply in_flat_map. exists j.
      split; [apply zrange_In; lia|]. apply in_map_iff. exists c. split; [exact E|apply zrange_In; lia]. }
  destruct (in_dec pair_eq_dec p l) as [H|H].
  - left. apply Hl, H.
  - right. intros i j c Hi E. apply H, Hl. exists i, j, c. auto.
Qed.
Lemma writes_agree {E} (r : res E mem) m out x y w h f f' M :
  writes r m out x y w h f -> writes (@Ok E mem M) m out x y w h f' -> (forall i j c, inside w h (icc out) i j c -> f i j c = f' i j c) ->
  exists M', r = Ok M' /\ forall p, get M p = get M' p.
Proof.
  intros (m1 & E1 & V1 & L1 & F1) (m2 & E2 & V2 & L2 & F2) Hf. exists m1. split; [exact E1|].
  injection E2 as <-. intros p. destruct (roi_cell_dec out x y w h p) as [(i & j & c & Hi & <-)|H].
  - specialize (V1 i j c Hi). specialize (V2 i j c Hi). unfold pixel in *. rewrite V1, V2. symmetry. apply Hf, Hi.
  - rewrite F1, F2; [reflexivity| |]; intros i j c Hi He; exact (H i j c Hi (eq_sym He)).
Qed.
Lemma agree_writes d ww hh m cpu gpu_ out x y w h f f' :
  writes cpu m out x y w h f ->
  device_run (comfortable d ww hh) m gpu_ (fun M => writes (@Ok mem mem M) m out x y w h f') ->
  (forall i j c, inside w h (icc out) i j c -> f i j c = f' i j c) -> agree d ww hh m cpu gpu_.
Proof.
  intros H1 H2 Hf. pose proof H1 as (M & E & _). exists M. split; [exact E|].
  eapply device_run_weak; [|exact H2]. intros M' H3. cbv beta in H3.
  destruct (writes_agree cpu m out x y w h f f' M' H1 H3 Hf) as (M2 & E2 & Hp). rewrite E in E2. injection E2 as <-. exact Hp.
Qed.

Definition both_two_inputs : list (call2 * cuda_call2) :=
  [(AbsoluteDifference, cuda_AbsoluteDifference); (BitwiseAnd, cuda_BitwiseAnd); (BitwiseOr, cuda_BitwiseOr);
   (BitwiseXor, cuda_BitwiseXor); (Maximum, cuda_Maximum); (Minimum, cuda_Minimum)].
Theorem C131_two_inputs_partial F G d m in1 x1 y1 in2 x2 y2 out xo yo w h :
  In (F, G) both_two_inputs -> device_ok d ->
  area m in1 x1 y1 w h -> area m in2 x2 y2 w h -> area m out xo yo w h ->
  icc in1 = icc out -> icc in2 = icc out -> bytes m in1 -> bytes m in2 ->
  no_hazard out xo yo in1 x1 y1 w h -> no_hazard out xo yo in2 x2 y2 w h ->
  agree d (w * icc out) h m (F m in1 x1 y1 in2 x2 y2 out xo yo w h) (fun s => G d s m in1 x1 y1 in2 x2 y2 out xo yo w h).
Proof.
  intros HF Hd A1 A2 Ao C1 C2 B1 B2 N1 N2.
  assert (H : exists f, In (F, f) two_input_functions /\ In (G, f) cuda_two_input_functions).
  { unfold both_two_inputs, two_input_functions, cuda_two_input_functions in *. cbn [In] in *.
    destruct HF as [E|[E|[E|[E|[E|[E|[]]]]]]]; injection E as <- <-; eexists; split;
      [left; reflexivity|left; reflexivity
      |right; left; reflexivity|right; left; reflexivity
      |do 2 right; left; reflexivity|do 2 right; left; reflexivity
      |do 3 right; left; reflexivity|do 3 right; left; reflexivity
      |do 4 right; left; reflexivity|do 4 right; left; reflexivity
      |do 5 right; left; reflexivity|do 5 right; left; reflexivity]. }
  destruct H as (f & HF1 & HG1).
  eapply agree_writes; [eapply C01_two_input_pixelwise; eassumption|eapply C125_two_inputs; eassumption|reflexivity].
Qed.
Theorem C131_one_input_partial d m inp xi yi out xo yo w h : device_ok d ->
  area m inp xi yi w h -> area m out xo yo w h -> bytes m inp -> disjoint out xo yo w h inp xi yi w h ->
  (icc inp = icc out ->
     agree d (w * icc out) h m (Invert m inp xi yi out xo yo w h) (fun s => cuda_Invert d s m inp xi yi out xo yo w h) /\
     agree d (w * icc out) h m (Copy m inp xi yi out xo yo w h) (fun s => cuda_Copy d s m inp xi yi out xo yo w h)) /\
  (icc inp = 1 -> icc out = 1 ->
     (forall t, agree d (w * icc out) h m (Threshold t m inp xi yi out xo yo w h) (fun s => cuda_Threshold t d s m inp xi yi out xo yo w h)) /\
     (forall lo hi, lo <= hi -> agree d (w * icc out) h m (Threshold2 lo hi m inp xi yi out xo yo w h)
        (fun s => cuda_Threshold2 lo hi d s m inp xi yi out xo yo w h)) /\
     (forall hor ver, agree d w h m (Flip m inp xi yi out xo yo w h hor ver) (fun s => cuda_Flip d s m inp xi yi out xo yo w h hor ver))) /\
  (icc inp = 3 -> icc out = 1 ->
     agree d w h m (ConvertToGrayScale m inp xi yi out xo yo w h) (fun s => cuda_ConvertToGrayScale d s m inp xi yi out xo yo w h)) /\
  (icc inp = 1 -> icc out = 3 ->
     agree d w h m (ConvertToRgb m inp xi yi out xo yo w h) (fun s => cuda_ConvertToRgb d s m inp xi yi out xo yo w h)) /\
  (forall ch, icc out = 1 -> 0 <= ch < icc inp ->
     agree d w h m (ExtractChannel m inp xi yi out xo yo w h ch) (fun s => cuda_ExtractChannel d s m inp xi yi out xo yo w h ch)).
Proof.
  intros Hd A1 Ao B D. pose proof (hazard_of_disjoint _ _ _ _ _ _ _ _ D) as N.
  split; [|split; [|split; [|split]]].
  - intros C. split.
    + eapply agree_writes; [apply C03_invert; assumption|apply C125_invert; assumption|reflexivity].
    + eapply agree_writes; [apply C03_copy; assumption|apply C125_copy; assumption|reflexivity].
  - intros C Co. split; [|split].
    + intros t. eapply agree_writes; [apply C03_threshold; assumption|apply C125_threshold; assumption|].
      intros i j c _. cbv beta. rewrite Z.ltb_antisym. destruct (_ <=? _); reflexivity.
    + intros lo hi L. eapply agree_writes; [apply C03_threshold_band; assumption|apply C125_threshold_band; assumption|reflexivity].
    + intros hor ver. eapply agree_writes; [apply C07_flip; assumption|apply C125_flip; assumption|].
      intros i j c (_ & _ & Hc). cbv beta. assert (c = 0) by lia. subst c. destruct hor, ver; reflexivity.
  - intros C Co. eapply agree_writes; [apply C14_to_gray; assumption|apply C125_to_gray; auto; lia|].
    intros i j c _. cbv beta. rewrite C. f_equal.
  - intros C Co. eapply agree_writes; [apply C14_to_rgb; assumption|apply C125_to_rgb; assumption|reflexivity].
  - intros ch Co Hch. eapply agree_writes; [apply C09_extract_channel; assumption|apply C125_extract_channel; assumption|reflexivity].
Qed.
Print Assumptions C131_two_inputs_partial.
Print Assumptions C131_one_input_partial.
Example C131_case : agree gpu 9 2 emem
    (Minimum emem (img 1 5 4 3 16) 1 1 (img 2 4 3 3 12) 0 1 (img 3 6 5 3 20) 2 0 3 2)
    (fun s => cuda_Minimum gpu s emem (img 1 5 4 3 16) 1 1 (img 2 4 3 3 12) 0 1 (img 3 6 5 3 20) 2 0 3 2).
Proof.
  refine (C131_two_inputs_partial Minimum cuda_Minimum gpu emem _ _ _ _ _ _ (img 3 6 5 3 20) _ _ 3 2 _ gpu_ok _ _ _ _ _ _ _ _ _);
    try solve_area; try reflexivity; try apply emem_bytes; try (apply hazard_of_disjoint; solve_disjoint).
  do 5 right. left. reflexivity.
Qed.
Example C131_case_gray : agree gpu 3 2 emem
    (ConvertToGrayScale emem (img 1 5 4 3 16) 1 1 (img 2 4 3 1 4) 0 1 3 2)
    (fun s => cuda_ConvertToGrayScale gpu s emem (img 1 5 4 3 16) 1 1 (img 2 4 3 1 4) 0 1 3 2).
Proof.
  destruct (C131_one_input_partial gpu emem (img 1 5 4 3 16) 1 1 (img 2 4 3 1 4) 0 1 3 2 gpu_ok) as (_ & _ & H & _);
    try solve_area; try apply emem_bytes; try solve_disjoint. apply H; reflexivity.
Qed.
