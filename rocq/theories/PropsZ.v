(** Properties C164 and C165: the functions of the CUDA and OpenCL back ends check their
    arguments before they touch the memory of an image. *)
From Coq Require Import ZArith List Bool Lia.
From Verif Require Import Base Image Spec BaseProofs ImgFun ImgLemmas ImgProofs SafeProofs ReduceProofs
  PropsA PropsB Cuda CudaProofs CudaRuns CudaSums PropsU OpenCL OpenCLProofs OpenCLRuns OpenCLSums.
Import ListNotations.
Open Scope Z_scope.

(** An exception has left the call, and every element of the memory is as before. *)
Definition refused {A} (r : res mem A) (m : mem) : Prop := exists M, r = Throw M /\ same_mem m M.
Lemma refused_at {A} m (r : res mem A) : r = Throw m -> refused r m.
Proof. intros ->. exists m. split; [reflexivity|]. split; reflexivity. Qed.
Lemma refused_array {A} m fresh vs (f : Z -> mem -> res mem (mem * A)) : (forall b m', f b m' = Throw m') -> refused (with_array m fresh vs f) m.
Proof.
  intros H. unfold with_array. destruct fresh as [b|]; [|apply refused_at; reflexivity]. rewrite H.
  eexists. split; [reflexivity|]. unfold without_block, with_block. split.
  - intros [b' o]. unfold get. cbn [fst snd]. destruct (b' =? b); reflexivity.
  - intros b'. unfold len. destruct (b' =? b); reflexivity.
Qed.
Ltac refuse := try (apply refused_at; reflexivity).

(** ** C164: CUDA *)
Definition cuda_two_inputs : list (device -> list nat -> mem -> image -> Z -> Z -> image -> Z -> Z -> image -> Z -> Z -> Z -> Z -> res mem mem) :=
  [cuda_AbsoluteDifference; cuda_BitwiseAnd; cuda_BitwiseOr; cuda_BitwiseXor; cuda_Maximum; cuda_Minimum; cuda_Subtract].
(** Regions outside an image, empty images, images of other numbers of channels. *)
Theorem C164_cuda_one_image d sched fresh m im x y w h : args_u32 im x y w h -> ~ valid_arg im x y w h ->
  (forall v, refused (cuda_Fill d sched m im x y w h v) m) /\
  refused (cuda_Histogram d fresh sched m im x y w h) m /\
  (forall hor, refused (cuda_ProjectionProfile d fresh sched m im x y w h hor) m).
Proof.
  intros U V. pose proof (args_bad _ _ _ _ _ U V) as E. unfold cuda_Fill, cuda_Histogram, cuda_ProjectionProfile. rewrite E.
  repeat split; intros; refuse.
Qed.
Theorem C164_cuda_two_images d sched fresh m a xa ya b xb yb w h : args_u32 a xa ya w h -> args_u32 b xb yb w h ->
  ~ (valid_arg a xa ya w h /\ valid_arg b xb yb w h) ->
  refused (cuda_Copy d sched m a xa ya b xb yb w h) m /\
  refused (cuda_Invert d sched m a xa ya b xb yb w h) m /\
  (forall t, refused (cuda_Threshold t d sched m a xa ya b xb yb w h) m) /\
  (forall lo hi, refused (cuda_Threshold2 lo hi d sched m a xa ya b xb yb w h) m) /\
  refused (cuda_ConvertToGrayScale d sched m a xa ya b xb yb w h) m /\
  refused (cuda_ConvertToRgb d sched m a xa ya b xb yb w h) m /\
  (forall ch, refused (cuda_ExtractChannel d sched m a xa ya b xb yb w h ch) m) /\
  (forall hor ver, refused (cuda_Flip d sched m a xa ya b xb yb w h hor ver) m) /\
  refused (cuda_IsEqual d fresh sched m a xa ya b xb yb w h) m /\
  (forall table, refused (cuda_LookupTable table d fresh sched m a xa ya b xb yb w h) m).
Proof.
  intros Ua Ub V. pose proof (bad2 _ _ _ _ _ _ _ _ Ua Ub V) as E.
  unfold cuda_Copy, cuda_Invert, cuda_Threshold, cuda_Threshold2, cuda1, cuda_ConvertToGrayScale, cuda_ConvertToRgb, cuda_ExtractChannel,
    cuda_Flip, cuda_IsEqual, cuda_LookupTable. rewrite E. repeat split; intros; refuse.
Qed.
Theorem C164_cuda_three_images F d sched m a xa ya b xb yb c xc yc w h : In F cuda_two_inputs ->
  args_u32 a xa ya w h -> args_u32 b xb yb w h -> args_u32 c xc yc w h ->
  ~ (valid_arg a xa ya w h /\ valid_arg b xb yb w h /\ valid_arg c xc yc w h /\ icc a = icc c /\ icc b = icc c) ->
  refused (F d sched m a xa ya b xb yb c xc yc w h) m.
Proof.
  intros HF Ua Ub Uc V.
  assert (exists at_ g, F = cuda2 at_ g) as (at_ & g & ->).
  { cbn [cuda_two_inputs In] in HF. destruct HF as [<-|[<-|[<-|[<-|[<-|[<-|[<-|[]]]]]]]]; eexists; eexists; reflexivity. }
  unfold cuda2. destruct (valid_roi3 a xa ya b xb yb c xc yc w h) eqn:E; refuse.
  destruct (common_cc3 a b c) eqn:C; refuse. exfalso.
  assert (Hv : ~ (valid_arg a xa ya w h /\ valid_arg b xb yb w h /\ valid_arg c xc yc w h)).
  { unfold common_cc3 in C. apply andb_prop in C as (C1 & C2). apply Z.eqb_eq in C1, C2. intros (V1 & V2 & V3). apply V. repeat (split; [assumption|]). congruence. }
  rewrite (bad3 _ _ _ _ _ _ _ _ _ _ _ Ua Ub Uc Hv) in E. discriminate.
Qed.
(** Numbers of channels that do not fit, a table of another length, a channel the image does not
    have; whatever the regions are. *)
Theorem C164_cuda_colours d sched fresh m a xa ya b xb yb w h :
  (icc a <> icc b -> refused (cuda_Copy d sched m a xa ya b xb yb w h) m /\ refused (cuda_Invert d sched m a xa ya b xb yb w h) m /\
     refused (cuda_IsEqual d fresh sched m a xa ya b xb yb w h) m) /\
  (forall table, icc a <> icc b \/ length table <> 256%nat -> refused (cuda_LookupTable table d fresh sched m a xa ya b xb yb w h) m) /\
  (icc a <> 1 \/ icc b <> 1 -> (forall t, refused (cuda_Threshold t d sched m a xa ya b xb yb w h) m) /\
     (forall lo hi, refused (cuda_Threshold2 lo hi d sched m a xa ya b xb yb w h) m) /\
     (forall hor ver, refused (cuda_Flip d sched m a xa ya b xb yb w h hor ver) m)) /\
  (icc b <> 1 -> refused (cuda_ConvertToGrayScale d sched m a xa ya b xb yb w h) m /\
     (forall v, refused (cuda_Fill d sched m b xb yb w h v) m) /\ refused (cuda_Histogram d fresh sched m b xb yb w h) m) /\
  (icc b <> 3 -> refused (cuda_ConvertToRgb d sched m a xa ya b xb yb w h) m) /\
  (forall ch, icc b <> 1 \/ icc a <= ch -> refused (cuda_ExtractChannel d sched m a xa ya b xb yb w h ch) m).
Proof.
  unfold cuda_Copy, cuda_Invert, cuda_Threshold, cuda_Threshold2, cuda1, cuda_ConvertToGrayScale, cuda_ConvertToRgb, cuda_ExtractChannel,
    cuda_Flip, cuda_IsEqual, cuda_LookupTable, cuda_Fill, cuda_Histogram, common_cc2, is_gray, is_rgb, GRAY_SCALE, RGB.
  assert (G : icc a <> 1 \/ icc b <> 1 -> (icc a =? 1) && (icc b =? 1) = false).
  { intros [N|N]; apply Z.eqb_neq in N; rewrite N; rewrite ?andb_false_r; reflexivity. }
  destruct (valid_roi2 a xa ya b xb yb w h); [|repeat split; intros; try (destruct (valid_roi b xb yb w h)); refuse;
    match goal with N : icc b <> 1 |- _ => apply Z.eqb_neq in N; rewrite N; refuse end].
  split; [|split; [|split; [|split; [|split]]]].
  - intros N. apply Z.eqb_neq in N. rewrite N. repeat split; refuse.
  - intros table H. destruct (Z.eqb_spec (Z.of_nat (length table)) 256) as [L|L]; refuse.
    destruct H as [N|N]; [|lia]. apply Z.eqb_neq in N. rewrite N. refuse.
  - intros N. rewrite (G N). repeat split; intros; refuse.
  - intros N. apply Z.eqb_neq in N. rewrite N. repeat split; intros; try (destruct (valid_roi b xb yb w h)); refuse.
  - intros N. apply Z.eqb_neq in N. rewrite N. refuse.
  - intros ch H. destruct (Z.eqb_spec (icc b) 1); refuse. destruct H as [N|N]; [contradiction|]. rewrite (proj2 (Z.ltb_ge ch (icc a)) N). refuse.
Qed.
(** Pixels: SetPixel and SetPixels; copies between host and device. *)
Theorem C164_cuda_pixels d sched f1 f2 m im v :
  (idata im = None -> (forall x y, refused (cuda_SetPixel d sched m im x y v) m) /\ (forall X Y, refused (cuda_SetPixels d f1 f2 sched m im X Y v) m)) /\
  (forall x y, iw im <= x \/ ih im <= y -> refused (cuda_SetPixel d sched m im x y v) m) /\
  (forall X Y, length X <> length Y -> refused (cuda_SetPixels d f1 f2 sched m im X Y v) m) /\
  (forall X Y i, (i < length X)%nat -> iw im <= nth i X 0 \/ ih im <= nth i Y 0 -> refused (cuda_SetPixels d f1 f2 sched m im X Y v) m).
Proof.
  split; [intros N; unfold cuda_SetPixel, cuda_SetPixels, valid_image, iempty; rewrite N; split; intros; refuse|].
  unfold cuda_SetPixel, cuda_SetPixels. destruct (valid_image im); [|repeat split; intros; refuse].
  split; [|split].
  - intros x y [H|H]; apply Z.leb_le in H; rewrite H; rewrite ?orb_true_r; refuse.
  - intros X Y N. apply Nat.eqb_neq in N. rewrite N. refuse.
  - intros X Y i Hi H. destruct (Nat.eqb_spec (length X) (length Y)) as [L|L]; refuse.
    destruct (Nat.eqb_spec (length X) 0); [lia|].
    destruct (forallb _ (combine X Y)) eqn:E; refuse. exfalso. rewrite forallb_forall in E.
    specialize (E (nth i (combine X Y) (0, 0)) ltac:(apply nth_In; rewrite combine_length; lia)).
    rewrite combine_nth in E by exact L. cbn [fst snd] in E.
    destruct H as [H|H]; apply Z.leb_le in H; rewrite H in E; rewrite ?orb_true_r in E; discriminate.
Qed.
Theorem C164_cuda_transfer m a b :
  idata a = None \/ idata b = None \/ iw a <> iw b \/ ih a <> ih b \/ icc a <> icc b ->
  refused (ConvertToCuda m a b) m /\ refused (ConvertFromCuda m a b) m.
Proof.
  intros H. unfold ConvertToCuda, ConvertFromCuda.
  assert (E : valid_image a && valid_image b && ((iw a =? iw b) && (ih a =? ih b) && (icc a =? icc b)) = false).
  { unfold valid_image, iempty. destruct (idata a), (idata b); cbn [negb andb]; rewrite ?andb_false_r; try reflexivity.
    destruct (Z.eqb_spec (iw a) (iw b)), (Z.eqb_spec (ih a) (ih b)), (Z.eqb_spec (icc a) (icc b)); cbn [andb]; rewrite ?andb_false_r; try reflexivity.
    exfalso. destruct H as [H|[H|[H|[H|H]]]]; congruence. }
  destruct (valid_image a && valid_image b); [|split; refuse]. cbn [andb] in E. rewrite E. split; refuse.
Qed.
Example C164_case : refused (cuda_LookupTable [1; 2; 3] gpu (Some 9) [] emem (img 1 5 4 1 8) 0 0 (img 2 5 4 1 8) 0 0 2 2) emem /\
  args_u32 (img 1 5 4 1 8) 3 0 3 2 /\ ~ valid_arg (img 1 5 4 1 8) 3 0 3 2 /\
  refused (cuda_SetPixels gpu (Some 9) (Some 10) [] emem (img 1 5 4 1 8) [1; 5] [1; 1] 7) emem.
Proof.
  split; [apply C164_cuda_colours; right; discriminate|]. split.
  - unfold args_u32, u32_image, is_u32. cbn [iw ih img]. rewrite W32_val. lia.
  - split; [intros (_ & _ & [])|]; [cbn [iw img] in *; lia|].
    eapply (proj2 (proj2 (proj2 (C164_cuda_pixels gpu [] (Some 9) (Some 10) emem (img 1 5 4 1 8) 7))) [1; 5] [1; 1] 1%nat); [cbn; lia|cbn; lia].
Qed.
Print Assumptions C164_cuda_one_image.
Print Assumptions C164_cuda_two_images.
Print Assumptions C164_cuda_three_images.
Print Assumptions C164_cuda_colours.
Print Assumptions C164_cuda_pixels.
Print Assumptions C164_cuda_transfer.

(** ** C165: OpenCL *)
Definition cl_two_inputs : list (cldevice -> list nat -> mem -> image -> Z -> Z -> image -> Z -> Z -> image -> Z -> Z -> Z -> Z -> res mem mem) :=
  [cl_AbsoluteDifference; cl_BitwiseAnd; cl_BitwiseOr; cl_BitwiseXor; cl_Maximum; cl_Minimum; cl_Subtract].
Theorem C165_opencl_one_image d sched fresh m im x y w h : args_u32 im x y w h -> ~ valid_arg im x y w h ->
  (forall v, refused (cl_Fill d sched m im x y w h v) m) /\
  refused (cl_Histogram d fresh sched m im x y w h) m /\
  (forall hor, refused (cl_ProjectionProfile d fresh sched m im x y w h hor) m).
Proof.
  intros U V. pose proof (args_bad _ _ _ _ _ U V) as E. unfold cl_Fill, cl_Histogram, cl_ProjectionProfile. rewrite E.
  repeat split; intros; refuse.
Qed.
Theorem C165_opencl_two_images d sched sched' fresh fresh' tab m a xa ya b xb yb w h : args_u32 a xa ya w h -> args_u32 b xb yb w h ->
  ~ (valid_arg a xa ya w h /\ valid_arg b xb yb w h) ->
  refused (cl_Copy d sched m a xa ya b xb yb w h) m /\
  refused (cl_Invert d sched m a xa ya b xb yb w h) m /\
  (forall t, refused (cl_Threshold t d sched m a xa ya b xb yb w h) m) /\
  (forall lo hi, refused (cl_Threshold2 lo hi d sched m a xa ya b xb yb w h) m) /\
  refused (cl_ConvertToGrayScale d fresh sched m a xa ya b xb yb w h) m /\
  refused (cl_ConvertToRgb d fresh sched m a xa ya b xb yb w h) m /\
  (forall ch, refused (cl_ExtractChannel d sched m a xa ya b xb yb w h ch) m) /\
  (forall hor ver, refused (cl_Flip d sched m a xa ya b xb yb w h hor ver) m) /\
  refused (cl_IsEqual d fresh sched m a xa ya b xb yb w h) m /\
  (forall table, refused (cl_LookupTable table d fresh sched m a xa ya b xb yb w h) m) /\
  refused (cl_Normalize tab d fresh fresh' sched sched' m a xa ya b xb yb w h) m.
Proof.
  intros Ua Ub V. pose proof (bad2 _ _ _ _ _ _ _ _ Ua Ub V) as E.
  unfold cl_Copy, cl_Invert, cl_Threshold, cl_Threshold2, cl_thr, cl_ConvertToGrayScale, cl_ConvertToRgb, cl_ExtractChannel,
    cl_Flip, cl_IsEqual, cl_LookupTable, cl_Normalize. rewrite E. repeat split; intros; refuse.
Qed.
Theorem C165_opencl_three_images F d sched m a xa ya b xb yb c xc yc w h : In F cl_two_inputs ->
  args_u32 a xa ya w h -> args_u32 b xb yb w h -> args_u32 c xc yc w h ->
  ~ (valid_arg a xa ya w h /\ valid_arg b xb yb w h /\ valid_arg c xc yc w h /\ icc a = icc c /\ icc b = icc c) ->
  refused (F d sched m a xa ya b xb yb c xc yc w h) m.
Proof.
  intros HF Ua Ub Uc V.
  assert (exists g, F = cl2 g) as (g & ->).
  { cbn [cl_two_inputs In] in HF. destruct HF as [<-|[<-|[<-|[<-|[<-|[<-|[<-|[]]]]]]]]; eexists; reflexivity. }
  unfold cl2. destruct (valid_roi3 a xa ya b xb yb c xc yc w h) eqn:E; refuse.
  destruct (common_cc3 a b c) eqn:C; refuse. exfalso.
  assert (Hv : ~ (valid_arg a xa ya w h /\ valid_arg b xb yb w h /\ valid_arg c xc yc w h)).
  { unfold common_cc3 in C. apply andb_prop in C as (C1 & C2). apply Z.eqb_eq in C1, C2. intros (V1 & V2 & V3). apply V. repeat (split; [assumption|]). congruence. }
  rewrite (bad3 _ _ _ _ _ _ _ _ _ _ _ Ua Ub Uc Hv) in E. discriminate.
Qed.
Theorem C165_opencl_colours d sched sched' fresh fresh' tab m a xa ya b xb yb w h :
  (icc a <> icc b -> refused (cl_Copy d sched m a xa ya b xb yb w h) m /\ refused (cl_Invert d sched m a xa ya b xb yb w h) m /\
     refused (cl_IsEqual d fresh sched m a xa ya b xb yb w h) m /\
     refused (cl_Normalize tab d fresh fresh' sched sched' m a xa ya b xb yb w h) m) /\
  (forall table, icc a <> icc b \/ length table <> 256%nat -> refused (cl_LookupTable table d fresh sched m a xa ya b xb yb w h) m) /\
  (icc a <> 1 \/ icc b <> 1 -> (forall t, refused (cl_Threshold t d sched m a xa ya b xb yb w h) m) /\
     (forall lo hi, refused (cl_Threshold2 lo hi d sched m a xa ya b xb yb w h) m) /\
     (forall hor ver, refused (cl_Flip d sched m a xa ya b xb yb w h hor ver) m)) /\
  (icc b <> 1 -> refused (cl_ConvertToGrayScale d fresh sched m a xa ya b xb yb w h) m /\
     (forall v, refused (cl_Fill d sched m b xb yb w h v) m) /\ refused (cl_Histogram d fresh sched m b xb yb w h) m) /\
  (icc b <> 3 -> refused (cl_ConvertToRgb d fresh sched m a xa ya b xb yb w h) m) /\
  (forall ch, icc b <> 1 \/ icc a <= ch -> refused (cl_ExtractChannel d sched m a xa ya b xb yb w h ch) m).
Proof.
  unfold cl_Copy, cl_Invert, cl_Threshold, cl_Threshold2, cl_thr, cl_ConvertToGrayScale, cl_ConvertToRgb, cl_ExtractChannel,
    cl_Flip, cl_IsEqual, cl_LookupTable, cl_Normalize, cl_Fill, cl_Histogram, common_cc2, is_gray, is_rgb, GRAY_SCALE, RGB.
  assert (G : icc a <> 1 \/ icc b <> 1 -> (icc a =? 1) && (icc b =? 1) = false).
  { intros [N|N]; apply Z.eqb_neq in N; rewrite N; rewrite ?andb_false_r; reflexivity. }
  destruct (valid_roi2 a xa ya b xb yb w h); [|repeat split; intros; try (destruct (valid_roi b xb yb w h)); refuse;
    match goal with N : icc b <> 1 |- _ => apply Z.eqb_neq in N; rewrite N; refuse end].
  split; [|split; [|split; [|split; [|split]]]].
  - intros N. apply Z.eqb_neq in N. rewrite N. repeat split; refuse. apply refused_array. reflexivity.
  - intros table H. destruct (Z.eqb_spec (Z.of_nat (length table)) 256) as [L|L]; refuse.
    destruct H as [N|N]; [|lia]. apply Z.eqb_neq in N. rewrite N. apply refused_array. reflexivity.
  - intros N. rewrite (G N). repeat split; intros; refuse.
  - intros N. apply Z.eqb_neq in N. rewrite N. repeat split; intros; try (destruct (valid_roi b xb yb w h)); refuse.
  - intros N. apply Z.eqb_neq in N. rewrite N. refuse.
  - intros ch H. destruct (Z.eqb_spec (icc b) 1); refuse. destruct H as [N|N]; [contradiction|]. rewrite (proj2 (Z.ltb_ge ch (icc a)) N). refuse.
Qed.
Theorem C165_opencl_pixels ov d sched f1 f2 m im v :
  (idata im = None -> (forall x y, refused (cl_SetPixel ov d sched m im x y v) m) /\ (forall X Y, refused (cl_SetPixels ov d f1 f2 sched m im X Y v) m)) /\
  (forall x y, iw im <= x \/ ih im <= y -> refused (cl_SetPixel ov d sched m im x y v) m) /\
  (forall X Y, X = [] \/ length X <> length Y -> refused (cl_SetPixels ov d f1 f2 sched m im X Y v) m) /\
  (forall X Y i, (i < length X)%nat -> iw im <= nth i X 0 \/ ih im <= nth i Y 0 -> refused (cl_SetPixels ov d f1 f2 sched m im X Y v) m).
Proof.
  split; [intros N; unfold cl_SetPixel, cl_SetPixels, valid_image, iempty; rewrite N; split; intros; refuse|].
  unfold cl_SetPixel, cl_SetPixels. destruct (valid_image im); [|repeat split; intros; refuse].
  destruct (match ov with NoKernel => false | _ => true end); [|repeat split; intros; refuse].
  split; [|split].
  - intros x y [H|H]; apply Z.leb_le in H; rewrite H; rewrite ?orb_true_r; refuse.
  - intros X Y [->|N]; [refuse|]. apply Nat.eqb_neq in N. rewrite N, andb_false_r. refuse.
  - intros X Y i Hi H. destruct (Nat.eqb_spec (length X) (length Y)) as [L|L]; [|rewrite andb_false_r; refuse].
    destruct (Nat.eqb_spec (length X) 0); [lia|]. cbn [negb andb].
    destruct (forallb _ (combine X Y)) eqn:E; refuse. exfalso. rewrite forallb_forall in E.
    specialize (E (nth i (combine X Y) (0, 0)) ltac:(apply nth_In; rewrite combine_length; lia)).
    rewrite combine_nth in E by exact L. cbn [fst snd] in E.
    destruct H as [H|H]; apply Z.leb_le in H; rewrite H in E; rewrite ?orb_true_r in E; discriminate.
Qed.
Theorem C165_opencl_transfer m a b :
  idata a = None \/ idata b = None \/ iw a <> iw b \/ ih a <> ih b \/ icc a <> icc b ->
  refused (ConvertToOpenCL m a b) m /\ refused (ConvertFromOpenCL m a b) m.
Proof.
  intros H. unfold ConvertToOpenCL, ConvertFromOpenCL. split.
  - assert (E : valid_image a && valid_image b && ((iw a =? iw b) && (ih a =? ih b) && (icc a =? icc b)) = false).
    { unfold valid_image, iempty. destruct (idata a), (idata b); cbn [negb andb]; rewrite ?andb_false_r; try reflexivity.
      destruct (Z.eqb_spec (iw a) (iw b)), (Z.eqb_spec (ih a) (ih b)), (Z.eqb_spec (icc a) (icc b)); cbn [andb]; rewrite ?andb_false_r; try reflexivity.
      exfalso. destruct H as [H|[H|[H|[H|H]]]]; congruence. }
    destruct (valid_image a && valid_image b); refuse. cbn [andb] in E. rewrite E. refuse.
  - destruct (valid_pair a b) eqn:V; refuse.
    assert (Q : idata a <> None /\ idata b <> None).
    { unfold valid_pair, iempty in V. split; intros Q; rewrite Q in V; cbn [orb negb] in V; rewrite ?orb_true_r in V; discriminate. }
    destruct (Z.eqb_spec (iw a) (iw b)), (Z.eqb_spec (ih a) (ih b)), (Z.eqb_spec (icc a) (icc b)); cbn [andb]; refuse.
    exfalso. destruct Q. destruct H as [H|[H|[H|[H|H]]]]; contradiction.
Qed.
Example C165_case d : refused (cl_Maximum d [] emem (img 1 5 4 1 8) 0 0 (img 2 5 4 3 16) 0 0 (img 3 5 4 1 8) 0 0 2 2) emem /\
  refused (cl_SetPixels ManyPixels d (Some 9) (Some 10) [] emem (img 1 5 4 1 8) [1; 5] [1; 1] 7) emem.
Proof.
  split.
  - apply (C165_opencl_three_images cl_Maximum); try (unfold args_u32, u32_image, is_u32; cbn [iw ih img]; rewrite W32_val; lia).
    + unfold cl_two_inputs. cbn [In]. tauto.
    + intros (_ & _ & _ & _ & H). discriminate H.
  - eapply (proj2 (proj2 (proj2 (C165_opencl_pixels ManyPixels d [] (Some 9) (Some 10) emem (img 1 5 4 1 8) 7))) [1; 5] [1; 1] 1%nat); [cbn; lia|cbn; lia].
Qed.
Print Assumptions C165_opencl_one_image.
Print Assumptions C165_opencl_two_images.
Print Assumptions C165_opencl_three_images.
Print Assumptions C165_opencl_colours.
Print Assumptions C165_opencl_pixels.
Print Assumptions C165_opencl_transfer.
