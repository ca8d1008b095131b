(** Properties of the scalar image functions: C12 - C22, C24 - C27, C30, C31, C82, C83. *)
From Coq Require Import ZArith List Bool Lia.
From Verif Require Import Base Image Spec BaseProofs ImgFun ImgLemmas ImgProofs ConvProofs ReduceProofs SafeProofs PropsA.
Import ListNotations.
Open Scope Z_scope.

Ltac Zify.zify_post_hook ::= Z.div_mod_to_equations.

(** ** C12, C13 *)

(** The samples of a 16-bit image. *)
Definition words (m : mem) (im : image) : Prop :=
  forall x y c, 0 <= x < iw im -> 0 <= y < ih im -> 0 <= c < icc im ->
    0 <= pixel m im x y c < 65536.
Lemma words_at m im x y w h i j c : words m im -> roi_in im x y w h -> inside w h (icc im) i j c ->
  0 <= pixel m im (x + i) (y + j) c < 65536.
Proof. intros B [] (Hi & Hj & Hc). apply B; lia. Qed.

Theorem C12_to_16bit m inp xi yi out xo yo w h :
  area m inp xi yi w h -> area m out xo yo w h -> icc inp = icc out -> bytes m inp ->
  xi = 0 \/ icc inp = 1 -> disjoint out xo yo w h inp xi yi w h ->
  writes (ConvertTo16Bit m inp xi yi out xo yo w h) m out xo yo w h
    (fun i j c => 256 * pixel m inp (xi + i) (yi + j) c).
Proof.
  intros [W1 R1] [Wo Ro] C B X D. eapply writes_ext.
  - apply ConvertTo16Bit_writes; auto. apply hazard_of_disjoint; assumption.
  - intros i j c Hi. cbv beta. pose proof (bytes_at m inp xi yi w h i j c B R1) as P. rewrite C in P. specialize (P Hi).
    rewrite Z.shiftl_mul_pow2 by lia. change (2 ^ 8) with 256. unfold u16. rewrite Z.mod_small; lia.
Qed.
Theorem C12_to_8bit m inp xi yi out xo yo w h :
  area m inp xi yi w h -> area m out xo yo w h -> icc inp = icc out -> words m inp ->
  xi = 0 \/ icc inp = 1 -> disjoint out xo yo w h inp xi yi w h ->
  writes (ConvertTo8Bit m inp xi yi out xo yo w h) m out xo yo w h
    (fun i j c => pixel m inp (xi + i) (yi + j) c / 256).
Proof.
  intros [W1 R1] [Wo Ro] C B X D. eapply writes_ext.
  - apply ConvertTo8Bit_writes; auto. apply hazard_of_disjoint; assumption.
  - intros i j c Hi. cbv beta. pose proof (words_at m inp xi yi w h i j c B R1) as P. rewrite C in P. specialize (P Hi).
    rewrite Z.shiftr_div_pow2 by lia. change (2 ^ 8) with 256. unfold u8. rewrite Z.mod_small; lia.
Qed.
(** Round trip through a 16-bit image into [back], which may be the input. *)
Theorem C12_round_trip m inp xi yi mid xm ym back xb yb w h :
  area m inp xi yi w h -> area m mid xm ym w h -> area m back xb yb w h ->
  icc inp = icc mid -> icc mid = icc back -> bytes m inp ->
  icc inp = 1 \/ (xi = 0 /\ xm = 0) ->
  disjoint mid xm ym w h inp xi yi w h -> disjoint back xb yb w h mid xm ym w h ->
  exists m1 m2, ConvertTo16Bit m inp xi yi mid xm ym w h = Ok m1 /\
    ConvertTo8Bit m1 mid xm ym back xb yb w h = Ok m2 /\
    forall i j c, inside w h (icc inp) i j c ->
      pixel m2 back (xb + i) (yb + j) c = pixel m inp (xi + i) (yi + j) c.
Proof.
  intros A1 Am Ab C1 C2 B X D Db.
  destruct (C12_to_16bit m inp xi yi mid xm ym w h) as (m1 & E1 & V1 & L1 & _); auto; [lia|].
  destruct (ConvertTo8Bit_writes m1 mid xm ym back xb yb w h) as (m2 & E2 & V2 & _ & _).
  - apply (wf_same_len m); [exact L1|apply Am].
  - apply (wf_same_len m); [exact L1|apply Ab].
  - exact C2.
  - apply Am.
  - apply Ab.
  - lia.
  - apply hazard_of_disjoint; assumption.
  - exists m1, m2. split; [exact E1|]. split; [exact E2|]. intros i j c Hi.
    rewrite V2 by (rewrite <- C2, <- C1; exact Hi). rewrite V1 by (rewrite <- C1; exact Hi).
    pose proof (bytes_at m inp xi yi w h i j c B (proj2 A1) Hi).
    rewrite Z.shiftr_div_pow2 by lia. change (2 ^ 8) with 256. unfold u8. rewrite Z.mod_small; lia.
Qed.
Example C12_case : area emem (img 1 5 4 3 16) 0 1 3 2 /\ area emem (img 2 4 3 3 12) 0 1 3 2 /\
  bytes emem (img 1 5 4 3 16) /\ disjoint (img 2 4 3 3 12) 0 1 3 2 (img 1 5 4 3 16) 0 1 3 2 /\
  words emem (img 2 4 3 3 12).
Proof.
  split; [solve_area|]. split; [solve_area|]. split; [apply emem_bytes|]. split; [solve_disjoint|].
  intros x y c Hx Hy Hc. pose proof (emem_bytes (img 2 4 3 3 12) x y c Hx Hy Hc). lia.
Qed.
Print Assumptions C12_to_16bit.
Print Assumptions C12_to_8bit.
Print Assumptions C12_round_trip.

Definition C13_claim : Prop :=
  forall m inp xi yi out xo yo w h,
  area m inp xi yi w h -> area m out xo yo w h -> icc inp = icc out -> bytes m inp ->
  disjoint out xo yo w h inp xi yi w h ->
  writes (ConvertTo16Bit m inp xi yi out xo yo w h) m out xo yo w h
    (fun i j c => 256 * pixel m inp (xi + i) (yi + j) c).
(** Block 1: byte [o] has value [o]. *)
Definition ramp : mem := fun b => mkBlock 64 (fun o => if b =? 1 then o mod 256 else 0).
Lemma ramp_bytes im : bytes ramp im.
Proof. intros x y c _ _ _. unfold pixel, get, ramp. cbn [bget]. destruct (_ =? _); [apply Z.mod_pos_bound|]; lia. Qed.
(** 2x1 RGB image; converting the right-hand pixel reads the bytes 1,2,3 instead of 3,4,5. *)
Theorem C13_colour_offset_refuted : ~ C13_claim.
Proof.
  intros H. specialize (H ramp (img 1 2 1 3 6) 1 0 (img 2 1 1 3 3) 0 0 1 1).
  destruct H as (m' & He & Hv & _); try solve_area; try reflexivity; try apply ramp_bytes; try solve_disjoint.
  specialize (Hv 0 0 0 ltac:(unfold inside; cbn; lia)). vm_compute in He. injection He as <-. vm_compute in Hv. discriminate Hv.
Qed.
Print Assumptions C13_colour_offset_refuted.
(** What holds: start column 0 (any colour count) or gray scale: [C12_to_16bit], [C12_to_8bit];
    memory safety for all offsets: [C05_same_colour_count]. *)

(** ** C14, C15 *)
Theorem C14_to_rgb m inp xi yi out xo yo w h :
  area m inp xi yi w h -> area m out xo yo w h -> icc inp = 1 -> icc out = 3 ->
  disjoint out xo yo w h inp xi yi w h ->
  writes (ConvertToRgb m inp xi yi out xo yo w h) m out xo yo w h
    (fun i j c => pixel m inp (xi + i) (yi + j) 0).
Proof. intros [] [] ? ? ?. apply ConvertToRgb_writes; assumption. Qed.
Theorem C14_to_gray m inp xi yi out xo yo w h :
  area m inp xi yi w h -> area m out xo yo w h -> icc inp = 3 -> icc out = 1 -> bytes m inp ->
  disjoint out xo yo w h inp xi yi w h ->
  writes (ConvertToGrayScale m inp xi yi out xo yo w h) m out xo yo w h
    (fun i j c => (pixel m inp (xi + i) (yi + j) 0 + pixel m inp (xi + i) (yi + j) 1
                   + pixel m inp (xi + i) (yi + j) 2) / 3).
Proof.
  intros [W1 R1] [Wo Ro] C Co B D. eapply writes_ext; [apply ConvertToGrayScale_writes; assumption|].
  intros i j c (Hi & Hj & Hc). cbv beta.
  assert (P : forall k, 0 <= k < 3 -> 0 <= pixel m inp (xi + i) (yi + j) k < 256).
  { intros k Hk. apply (bytes_at m inp xi yi w h); auto. unfold inside. rewrite C. lia. }
  pose proof (P 0) as P0. pose proof (P 1) as P1. pose proof (P 2) as P2.
  unfold u8. rewrite Z.mod_small; lia.
Qed.
Theorem C14_same_colour_copies m inp xi yi out xo yo w h :
  area m inp xi yi w h -> area m out xo yo w h -> icc inp = icc out ->
  disjoint out xo yo w h inp xi yi w h ->
  (icc out = 1 -> writes (ConvertToGrayScale m inp xi yi out xo yo w h) m out xo yo w h
                    (fun i j c => pixel m inp (xi + i) (yi + j) c)) /\
  (icc out = 3 -> writes (ConvertToRgb m inp xi yi out xo yo w h) m out xo yo w h
                    (fun i j c => pixel m inp (xi + i) (yi + j) c)).
Proof.
  intros [] [] C D. split; intros Co.
  - apply ConvertToGrayScale_copy; auto. congruence.
  - apply ConvertToRgb_copy; auto. congruence.
Qed.
Theorem C14_round_trip m inp xi yi mid xm ym back xb yb w h :
  area m inp xi yi w h -> area m mid xm ym w h -> area m back xb yb w h ->
  icc inp = 1 -> icc mid = 3 -> icc back = 1 -> bytes m inp ->
  disjoint mid xm ym w h inp xi yi w h -> disjoint back xb yb w h mid xm ym w h ->
  exists m1 m2, ConvertToRgb m inp xi yi mid xm ym w h = Ok m1 /\
    ConvertToGrayScale m1 mid xm ym back xb yb w h = Ok m2 /\
    forall i j, inside w h 1 i j 0 ->
      pixel m2 back (xb + i) (yb + j) 0 = pixel m inp (xi + i) (yi + j) 0.
Proof.
  intros [W1 R1] [Wm Rm] [Wb Rb] C1 Cm Cb B D Db.
  destruct (ConvertToRgb_writes m inp xi yi mid xm ym w h) as (m1 & E1 & V1 & L1 & _); auto.
  destruct (ConvertToGrayScale_writes m1 mid xm ym back xb yb w h) as (m2 & E2 & V2 & _ & _); auto;
    try (apply (wf_same_len m); assumption).
  exists m1, m2. split; [exact E1|]. split; [exact E2|]. intros i j (Hi & Hj & _).
  rewrite V2 by (unfold inside; lia). rewrite !V1 by (unfold inside; lia).
  pose proof (bytes_at m inp xi yi w h i j 0 B R1 ltac:(unfold inside; lia)).
  unfold u8. rewrite Z.mod_small; lia.
Qed.
Example C14_case : area emem (img 1 5 4 1 8) 1 1 3 2 /\ area emem (img 2 4 3 3 12) 0 1 3 2 /\
  area emem (img 3 3 2 1 3) 0 0 3 2 /\ bytes emem (img 1 5 4 1 8) /\
  disjoint (img 2 4 3 3 12) 0 1 3 2 (img 1 5 4 1 8) 1 1 3 2 /\ disjoint (img 3 3 2 1 3) 0 0 3 2 (img 2 4 3 3 12) 0 1 3 2.
Proof. split; [solve_area|]. split; [solve_area|]. split; [solve_area|]. split; [apply emem_bytes|]. split; solve_disjoint. Qed.
Print Assumptions C14_to_rgb.
Print Assumptions C14_to_gray.
Print Assumptions C14_same_colour_copies.
Print Assumptions C14_round_trip.

(** C15: each output pixel depends only on the input pixel at its position. *)
Definition C15_claim : Prop :=
  exists f : Z -> Z -> Z -> Z -> Z,
  forall m inp xi yi out xo yo w h,
  area m inp xi yi w h -> area m out xo yo w h -> icc inp = 4 -> icc out = 1 -> bytes m inp ->
  disjoint out xo yo w h inp xi yi w h ->
  writes (ConvertToGrayScale m inp xi yi out xo yo w h) m out xo yo w h
    (fun i j c => f (pixel m inp (xi + i) (yi + j) 0) (pixel m inp (xi + i) (yi + j) 1)
                    (pixel m inp (xi + i) (yi + j) 2) (pixel m inp (xi + i) (yi + j) 3)).
Definition C15_claim_rgb : Prop :=
  exists f : Z -> Z -> Z -> Z -> Z -> Z,
  forall m inp xi yi out xo yo w h,
  area m inp xi yi w h -> area m out xo yo w h -> icc inp = 4 -> icc out = 3 -> bytes m inp ->
  disjoint out xo yo w h inp xi yi w h ->
  writes (ConvertToRgb m inp xi yi out xo yo w h) m out xo yo w h
    (fun i j c => f c (pixel m inp (xi + i) (yi + j) 0) (pixel m inp (xi + i) (yi + j) 1)
                    (pixel m inp (xi + i) (yi + j) 2) (pixel m inp (xi + i) (yi + j) 3)).
(** Two pixels, all zero except the alpha value [a] of the left one. *)
Definition c15_mem (a : Z) : mem := fun b => mkBlock 16 (fun o => if (b =? 1) && (o =? 3) then a else 0).
Lemma c15_bytes a im : 0 <= a < 256 -> bytes (c15_mem a) im.
Proof. intros Ha x y c _ _ _. unfold pixel, get, c15_mem. cbn [bget]. destruct (_ && _); lia. Qed.
Theorem C15_rgba_to_gray_refuted : ~ C15_claim.
Proof.
  intros (f & H).
  assert (H0 := H (c15_mem 0) (img 1 2 1 4 8) 0 0 (img 2 2 1 1 2) 0 0 2 1).
  assert (H1 := H (c15_mem 255) (img 1 2 1 4 8) 0 0 (img 2 2 1 1 2) 0 0 2 1).
  destruct H0 as (m0 & E0 & V0 & _); try solve_area; try reflexivity; try (apply c15_bytes; lia); try solve_disjoint.
  destruct H1 as (m1 & E1 & V1 & _); try solve_area; try reflexivity; try (apply c15_bytes; lia); try solve_disjoint.
  specialize (V0 1 0 0 ltac:(unfold inside; cbn; lia)). specialize (V1 1 0 0 ltac:(unfold inside; cbn; lia)).
  vm_compute in E0, E1. injection E0 as <-. injection E1 as <-. vm_compute in V0, V1. congruence.
Qed.
(** The red values of the left pixel ([r]) and the green value ([g]) of it; the output's
    second pixel is the green value of the first input pixel. *)
Definition c15_mem2 (g : Z) : mem := fun b => mkBlock 16 (fun o => if (b =? 1) && (o =? 1) then g else 0).
Lemma c15_bytes2 a im : 0 <= a < 256 -> bytes (c15_mem2 a) im.
Proof. intros Ha x y c _ _ _. unfold pixel, get, c15_mem2. cbn [bget]. destruct (_ && _); lia. Qed.
Theorem C15_rgba_to_rgb_refuted : ~ C15_claim_rgb.
Proof.
  intros (f & H).
  assert (H0 := H (c15_mem2 0) (img 1 2 1 4 8) 0 0 (img 2 2 1 3 6) 0 0 2 1).
  assert (H1 := H (c15_mem2 255) (img 1 2 1 4 8) 0 0 (img 2 2 1 3 6) 0 0 2 1).
  destruct H0 as (m0 & E0 & V0 & _); try solve_area; try reflexivity; try (apply c15_bytes2; lia); try solve_disjoint.
  destruct H1 as (m1 & E1 & V1 & _); try solve_area; try reflexivity; try (apply c15_bytes2; lia); try solve_disjoint.
  specialize (V0 1 0 0 ltac:(unfold inside; cbn; lia)). specialize (V1 1 0 0 ltac:(unfold inside; cbn; lia)).
  vm_compute in E0, E1. injection E0 as <-. injection E1 as <-. vm_compute in V0, V1. congruence.
Qed.
Print Assumptions C15_rgba_to_gray_refuted.
Print Assumptions C15_rgba_to_rgb_refuted.

(** ** C16, C17, C18 *)

(** Number of pixels of the region for which [P i j] holds. *)
Definition count_roi (w h : Z) (P : Z -> Z -> bool) : Z := zsum h (fun j => zcount w (fun i => P i j)).
Definition entry (v : list Z) (i : Z) : Z := nth (Z.to_nat i) v 0.

Theorem C16_histogram m im x y w h :
  area m im x y w h -> icc im = 1 -> bytes m im ->
  exists hist, Histogram m im x y w h = Ok hist /\ length hist = 256%nat /\
    (forall v, 0 <= v < 256 -> entry hist v = count_roi w h (fun i j => pixel m im (x + i) (y + j) 0 =? v)) /\
    zsum 256 (entry hist) = w * h.
Proof.
  intros [W R] C B. destruct (Histogram_value m im x y w h W C R (bytes_roi _ _ _ _ _ _ B R)) as (hist & He & Hl & Hv).
  exists hist. split; [exact He|]. split; [exact Hl|]. split; [exact Hv|].
  rewrite (zsum_ext 256 _ (fun v => zsum h (fun j => zsum w (fun i => if pixel m im (x + i) (y + j) 0 =? v then 1 else 0)))) by exact Hv.
  rewrite zsum_swap.
  rewrite (zsum_ext h _ (fun _ => w)).
  - rewrite zsum_const by (destruct R; lia). lia.
  - intros j Hj. cbv beta. rewrite zsum_swap. rewrite (zsum_ext w _ (fun _ => 1)).
    + rewrite zsum_const by (destruct R; lia). lia.
    + intros i Hi. cbv beta.
      pose proof (bytes_at m im x y w h i j 0 B R ltac:(unfold inside; lia)) as P.
      set (a := pixel m im (x + i) (y + j) 0) in *. clearbody a.
      assert (G : forall n, 0 <= n -> zsum n (fun k => if a =? k then 1 else 0) = if a <? n then 1 else 0).
      { intros n Hn. pattern n. apply natlike_ind; auto.
        - destruct (Z.ltb_spec a 0); [lia|reflexivity].
        - intros k Hk IH. unfold Z.succ. rewrite zsum_S by lia. rewrite IH.
          destruct (Z.ltb_spec a k), (Z.ltb_spec a (k + 1)), (Z.eqb_spec a k); lia. }
      rewrite G by lia. destruct (Z.ltb_spec a 256); lia.
Qed.
Example C16_case : area emem (img 1 5 4 1 8) 1 1 3 2 /\ bytes emem (img 1 5 4 1 8).
Proof. split; [solve_area|apply emem_bytes]. Qed.
Print Assumptions C16_histogram.

Definition C17_claim : Prop :=
  forall m im x y w h, area m im x y w h -> bytes m im ->
  exists hist, Histogram m im x y w h = Ok hist /\
    zsum (256 * icc im) (entry hist) = w * h * icc im.
(** 3x1 RGB image: only one of the three pixels is counted. *)
Theorem C17_colour_histogram_refuted : ~ C17_claim.
Proof.
  intros H. destruct (H ramp (img 1 3 1 3 9) 0 0 3 1) as (hist & He & Hs); [solve_area|apply ramp_bytes|].
  vm_compute in He. injection He as <-. vm_compute in Hs. discriminate Hs.
Qed.
(** 1x1 RGB image: the loop steps over its end and reads outside the image. *)
Theorem C17_colour_histogram_out_of_bounds_refuted :
  exists m im x y w h, area m im x y w h /\ bytes m im /\ icc im = 3 /\ Histogram m im x y w h = UB.
Proof.
  exists (fun b => mkBlock 3 (fun o => 0)), (img 1 1 1 3 3), 0, 0, 1, 1.
  split; [solve_area|]. split; [intros x y c _ _ _; cbn; lia|]. split; [reflexivity|]. vm_compute. reflexivity.
Qed.
Print Assumptions C17_colour_histogram_refuted.
Print Assumptions C17_colour_histogram_out_of_bounds_refuted.

Theorem C18_masked_histogram m im x y mask mx my w h :
  area m im x y w h -> area m mask mx my w h -> icc im = 1 -> icc mask = 1 -> bytes m im -> bytes m mask ->
  exists hist, HistogramMask m im x y mask mx my w h = Ok hist /\ length hist = 256%nat /\
    forall v, 0 <= v < 256 ->
      entry hist v = count_roi w h (fun i j =>
        (pixel m im (x + i) (y + j) 0 =? v) && negb (pixel m mask (mx + i) (my + j) 0 =? 0)).
Proof.
  intros [W R] [Wm Rm] C Cm B Bm. apply HistogramMask_value; auto; apply bytes_roi; assumption.
Qed.
Example C18_case : area emem (img 1 5 4 1 8) 1 1 3 2 /\ area emem (img 2 4 3 1 4) 0 1 3 2 /\ bytes emem (img 1 5 4 1 8).
Proof. split; [solve_area|]. split; [solve_area|apply emem_bytes]. Qed.
Print Assumptions C18_masked_histogram.

(** ** C19, C20 *)

(** Exact sum of all samples of the region. *)
Definition roi_sum (m : mem) (im : image) (x y w h : Z) : Z :=
  zsum h (fun j => zsum w (fun i => zsum (icc im) (fun c => pixel m im (x + i) (y + j) c))).

Theorem C19_vertical m im x y w h : area m im x y w h ->
  exists p, ProjectionProfile m im x y w h false = Ok p /\ length p = Z.to_nat h /\
    forall j, 0 <= j < h ->
      entry p j = zsum w (fun i => zsum (icc im) (fun c => pixel m im (x + i) (y + j) c)) mod W32.
Proof. intros [W R]. apply Projection_vertical; assumption. Qed.
Theorem C19_horizontal m im x y w h : area m im x y w h ->
  exists p, ProjectionProfile m im x y w h true = Ok p /\ length p = Z.to_nat (w * icc im) /\
    forall i c, 0 <= i < w -> 0 <= c < icc im ->
      entry p (i * icc im + c) = zsum h (fun j => pixel m im (x + i) (y + j) c) mod W32.
Proof. intros [W R]. apply Projection_horizontal; assumption. Qed.

Lemma zsum_mod n f g : 0 <= n -> (forall k, 0 <= k < n -> f k mod W32 = g k mod W32) -> zsum n f mod W32 = zsum n g mod W32.
Proof.
  intros Hn. pattern n. apply natlike_ind; auto.
  intros k Hk IH H. unfold Z.succ in *. rewrite !zsum_S by lia.
  rewrite Z.add_mod by (unfold W32; lia). rewrite IH by (intros; apply H; lia). rewrite (H k) by lia.
  rewrite <- Z.add_mod by (unfold W32; lia). reflexivity.
Qed.
Lemma mod_mod a : (a mod W32) mod W32 = a mod W32.
Proof. apply Z.mod_mod. unfold W32. lia. Qed.
(** [n] groups of [k] entries. *)
Lemma zsum_groups f k : 0 <= k -> forall n, 0 <= n ->
  zsum (n * k) f = zsum n (fun i => zsum k (fun c => f (i * k + c))).
Proof.
  intros Hk n Hn. pattern n. apply natlike_ind; auto.
  intros n' Hn' IH. unfold Z.succ. rewrite zsum_S by lia. rewrite <- IH.
  replace ((n' + 1) * k) with (n' * k + k) by ring.
  pattern k at 2 4. apply natlike_ind; auto.
  - rewrite Z.add_0_r, zsum_0. lia.
  - intros c Hc IHc. unfold Z.succ. rewrite Z.add_assoc, !zsum_S by nia. lia.
Qed.
(** Either profile adds up to the sum of the region, which is what Sum returns for gray scale. *)
Theorem C19_profiles_agree_with_sum m im x y w h : area m im x y w h ->
  exists ph pv, ProjectionProfile m im x y w h true = Ok ph /\ ProjectionProfile m im x y w h false = Ok pv /\
    zsum (w * icc im) (entry ph) mod W32 = roi_sum m im x y w h mod W32 /\
    zsum h (entry pv) mod W32 = roi_sum m im x y w h mod W32 /\
    (icc im = 1 -> Sum m im x y w h = Ok (roi_sum m im x y w h mod W32)).
Proof.
  intros [W R].
  destruct (C19_horizontal m im x y w h (conj W R)) as (ph & Eh & _ & Vh).
  destruct (C19_vertical m im x y w h (conj W R)) as (pv & Ev & _ & Vv).
  exists ph, pv. split; [exact Eh|]. split; [exact Ev|].
  pose proof (wf_cc_pos _ _ W). assert (Hw : 0 < w) by apply R. assert (Hh : 0 < h) by apply R.
  split; [|split].
  - rewrite zsum_groups by lia.
    transitivity (zsum w (fun i => zsum (icc im) (fun c => zsum h (fun j => pixel m im (x + i) (y + j) c))) mod W32).
    + apply zsum_mod; [lia|]. intros i Hi. apply zsum_mod; [lia|]. intros c Hc. rewrite Vh by lia. apply mod_mod.
    + f_equal. unfold roi_sum. rewrite (zsum_swap h w). apply zsum_ext. intros i Hi. apply zsum_swap.
  - apply zsum_mod; [lia|]. intros j Hj. rewrite Vv by lia. apply mod_mod.
  - intros C. rewrite Sum_value by assumption. unfold roi_sum, u32. rewrite C. do 2 f_equal.
Qed.

Example C19_case : area emem (img 1 5 4 3 16) 1 1 3 2 /\ area emem (img 1 5 4 1 16) 1 1 3 2.
Proof. split; solve_area. Qed.
Print Assumptions C19_vertical.
Print Assumptions C19_horizontal.
Print Assumptions C19_profiles_agree_with_sum.

Theorem C20_sum m im x y w h : area m im x y w h -> icc im = 1 ->
  Sum m im x y w h = Ok (zsum h (fun j => zsum w (fun i => pixel m im (x + i) (y + j) 0)) mod W32).
Proof. intros [W R] C. apply Sum_value; assumption. Qed.
Theorem C20_sum_exact m im x y w h : area m im x y w h -> icc im = 1 -> bytes m im -> w * h <= 16843009 ->
  Sum m im x y w h = Ok (zsum h (fun j => zsum w (fun i => pixel m im (x + i) (y + j) 0))).
Proof.
  intros A C B L. rewrite C20_sum by assumption. destruct A as [W R]. f_equal. apply Z.mod_small.
  assert (Hb : h * (w * 0) <= zsum h (fun j => zsum w (fun i => pixel m im (x + i) (y + j) 0)) <= h * (w * 255)).
  { apply zsum_bound; [destruct R; lia|]. intros j Hj. apply zsum_bound; [destruct R; lia|]. intros i Hi.
    pose proof (bytes_at m im x y w h i j 0 B R ltac:(unfold inside; lia)). lia. }
  unfold W32. nia.
Qed.
(** The bound is sharp: 16843010 white pixels give 255*16843010 = 2^32 + 254. *)
Example C20_bound_sharp : 255 * 16843009 < W32 <= 255 * 16843010.
Proof. unfold W32. lia. Qed.
Example C20_case : area emem (img 1 5 4 1 8) 1 1 3 2 /\ bytes emem (img 1 5 4 1 8).
Proof. split; [solve_area|apply emem_bytes]. Qed.
Print Assumptions C20_sum.
Print Assumptions C20_sum_exact.

(** ** C21, C22, C83 *)
Theorem C21_resize m inp xi yi wi hi out xo yo wo ho :
  area m inp xi yi wi hi -> area m out xo yo wo ho -> icc inp = icc out ->
  (wo - 1) * wi < W32 -> (ho - 1) * hi < W32 ->
  disjoint out xo yo wo ho inp xi yi wi hi ->
  writes (Resize m inp xi yi wi hi out xo yo wo ho) m out xo yo wo ho
    (fun i j c => pixel m inp (xi + i * wi / wo) (yi + j * hi / ho) c).
Proof. intros [] [] ? ? ? ?. apply Resize_writes; assumption. Qed.
(** The source pixel lies inside the input region. *)
Theorem C21_resize_source_inside wi wo i : 0 < wi -> 0 <= i < wo -> 0 <= i * wi / wo < wi.
Proof.
  intros Hw Hi. split; [apply Z.div_pos; nia|]. apply Z.div_lt_upper_bound; nia.
Qed.
Theorem C21_resize_same_size_is_copy m inp xi yi out xo yo w h :
  area m inp xi yi w h -> area m out xo yo w h -> icc inp = icc out ->
  (w - 1) * w < W32 -> (h - 1) * h < W32 ->
  disjoint out xo yo w h inp xi yi w h ->
  exists m1 m2, Resize m inp xi yi w h out xo yo w h = Ok m1 /\ Copy m inp xi yi out xo yo w h = Ok m2 /\
    (forall p, get m1 p = get m2 p) /\ (forall b, len m1 b = len m2 b).
Proof.
  intros Ai Ao C Bw Bh D.
  destruct (C21_resize m inp xi yi w h out xo yo w h Ai Ao C Bw Bh D) as (m1 & E1 & V1 & L1 & F1).
  destruct (C03_copy m inp xi yi out xo yo w h Ai Ao C D) as (m2 & E2 & V2 & L2 & F2).
  exists m1, m2. split; [exact E1|]. split; [exact E2|]. assert (W : writes (Ok m1 : res mem mem) m out xo yo w h (fun i j c => pixel m inp (xi + i) (yi + j) c)).
  { exists m1. split; [reflexivity|]. split; [|split; assumption]. intros i j c Hi. rewrite V1 by assumption.
    destruct Hi as (Hi & Hj & Hc). rewrite !Z.div_mul by lia. reflexivity. }
  apply (writes_unique m m1 m2 out xo yo w h _ (proj1 Ao) (proj2 Ao) W). exists m2. split; [reflexivity|]. split; [exact V2|split; assumption].
Qed.
Example C21_case : area emem (img 1 5 4 3 16) 1 1 3 2 /\ area emem (img 2 9 9 3 28) 1 2 7 5 /\
  (7 - 1) * 3 < W32 /\ (5 - 1) * 2 < W32 /\ disjoint (img 2 9 9 3 28) 1 2 7 5 (img 1 5 4 3 16) 1 1 3 2.
Proof. split; [solve_area|]. split; [solve_area|]. split; [reflexivity|]. split; [reflexivity|]. solve_disjoint. Qed.
Print Assumptions C21_resize.
Print Assumptions C21_resize_source_inside.
Print Assumptions C21_resize_same_size_is_copy.

(** C22: the region form for images of any colour counts, and the value-returning form. *)
Definition C22_claim : Prop :=
  forall nb junk m inp x y wi hi wo ho,
  area m inp x y wi hi -> bytes m inp -> 0 < wo -> 0 < ho -> wo * ho * icc inp < W32 -> fst (ibase inp) <> nb ->
  exists m' out, ResizeNew nb junk m inp x y wi hi wo ho = Ok (m', out).
(** 1x1 RGB to 1x1: three bytes are written into a one-byte image. *)
Theorem C22_resize_value_form_refuted : ~ C22_claim.
Proof.
  intros H. destruct (H 2 (fun _ => 0) ramp (img 1 1 1 3 3) 0 0 1 1 1 1) as (m' & out & He);
    try solve_area; try apply ramp_bytes; try (cbn; unfold W32; lia).
  vm_compute in He. discriminate He.
Qed.
Theorem C22_resize_value_form_overflows :
  ResizeNew 2 (fun _ => 0) ramp (img 1 1 1 3 3) 0 0 1 1 1 1 = UB.
Proof. vm_compute. reflexivity. Qed.
(** Region form: safe whenever the input has no more channels than the output, for all
    region sizes (no bound on the index products). *)
Theorem C22_resize_safe_partial m inp xi yi wi hi out xo yo wo ho :
  area m inp xi yi wi hi -> area m out xo yo wo ho -> icc inp <= icc out ->
  icc inp = 1 \/ disjoint out 0 0 (iw out) (ih out) inp xi yi wi hi ->
  returns_safely (Resize m inp xi yi wi hi out xo yo wo ho) m.
Proof. intros [W1 R1] [Wo Ro] C D. apply Resize_safe; assumption. Qed.
Example C22_case : area emem (img 1 5 4 1 16) 1 1 3 2 /\ area emem (img 2 9 9 3 28) 1 2 7 5.
Proof. split; solve_area. Qed.
(** More channels in than out: writes outside the output image. *)
Theorem C22_resize_more_channels_refuted :
  exists m inp out, area m inp 0 0 1 1 /\ area m out 0 0 1 1 /\ icc inp = 3 /\ icc out = 1 /\
    disjoint out 0 0 1 1 inp 0 0 1 1 /\ Resize m inp 0 0 1 1 out 0 0 1 1 = UB.
Proof.
  exists (fun b => mkBlock (if b =? 1 then 3 else 1) (fun o => 0)), (img 1 1 1 3 3), (img 2 1 1 1 1).
  split; [solve_area|]. split; [solve_area|]. split; [reflexivity|]. split; [reflexivity|]. split; [solve_disjoint|].
  vm_compute. reflexivity.
Qed.
(** Gray-scale images: the value-returning form gives the new image. *)
Theorem C22_resize_value_gray_partial nb junk m inp x y wi hi wo ho :
  area m inp x y wi hi -> icc inp = 1 -> 0 < wo -> 0 < ho -> wo * ho < W32 ->
  (wo - 1) * wi < W32 -> (ho - 1) * hi < W32 -> fst (ibase inp) <> nb ->
  returns_image (ResizeNew nb junk m inp x y wi hi wo ho) m nb wo ho 1
    (fun i j c => pixel m inp (x + i * wi / wo) (y + j * hi / ho) c).
Proof.
  intros [W R] C Hw Hh Hs Bw Bh Hn. unfold ResizeNew. rewrite (valid_roi_ok m) by assumption.
  assert (Hs1 : wo * 1 * ho < W32) by lia.
  pose proof (generate_area m nb junk (ity inp) wo ho 1 Hw Hh (or_introl eq_refl) Hs1) as G.
  destruct (generate m nb junk (ity inp) wo ho 1) as [m1 out].
  destruct G as (Ao & Ew & Eh & Ec & Eb & Hg & Hl).
  eapply returns_of_writes; eauto.
  - apply (C21_resize m1 inp x y wi hi out 0 0 wo ho); auto.
    + split; [apply (fresh_wf m m1 nb); auto|assumption].
    + congruence.
    + apply disjoint_blocks. congruence.
  - intros i j c Hi. cbv beta. rewrite !(fresh_pixel m m1 nb) by assumption. reflexivity.
Qed.
Example C22_case_value : area emem (img 1 5 4 1 16) 1 1 3 2 /\ 7 * 5 < W32 /\ (7 - 1) * 3 < W32.
Proof. split; [solve_area|]. split; reflexivity. Qed.
Print Assumptions C22_resize_value_form_refuted.
Print Assumptions C22_resize_value_form_overflows.
Print Assumptions C22_resize_safe_partial.
Print Assumptions C22_resize_more_channels_refuted.
Print Assumptions C22_resize_value_gray_partial.

(** C83: Resize for all sizes. *)
Definition C83_claim : Prop :=
  forall m inp xi yi wi hi out xo yo wo ho,
  area m inp xi yi wi hi -> area m out xo yo wo ho -> icc inp = icc out ->
  disjoint out xo yo wo ho inp xi yi wi hi ->
  writes (Resize m inp xi yi wi hi out xo yo wo ho) m out xo yo wo ho
    (fun i j c => pixel m inp (xi + i * wi / wo) (yi + j * hi / ho) c).

(** A row of 2^31 pixels, of which only the first is 1, reduced to three pixels: the third
    output pixel is taken from column 0 instead of column floor(2^32/3). *)
Definition c83_mem : mem := fun b => mkBlock 2147483648 (fun o => if (b =? 1) && (o =? 0) then 1 else 0).
Theorem C83_resize_wide_refuted : ~ C83_claim.
Proof.
  intros H. specialize (H c83_mem (img 1 2147483648 1 1 2147483648) 0 0 2147483648 1 (img 2 3 1 1 3) 0 0 3 1).
  destruct H as (m' & He & Hv & _); try solve_area; try reflexivity; try solve_disjoint.
  specialize (Hv 2 0 0 ltac:(unfold inside; cbn; lia)). vm_compute in He. injection He as <-. vm_compute in Hv. discriminate Hv.
Qed.
Print Assumptions C83_resize_wide_refuted.

(** ** C24 *)
Theorem C24_is_equal m in1 x1 y1 in2 x2 y2 w h :
  area m in1 x1 y1 w h -> area m in2 x2 y2 w h -> icc in1 = icc in2 ->
  exists b, IsEqual m in1 x1 y1 in2 x2 y2 w h = Ok b /\
    (b = true <-> forall i j c, inside w h (icc in1) i j c ->
       pixel m in1 (x1 + i) (y1 + j) c = pixel m in2 (x2 + i) (y2 + j) c).
Proof. intros [] [] C. apply IsEqual_value; assumption. Qed.

Lemma zcount_pos_witness n P : 0 <= n -> 0 < zcount n P -> exists k, 0 <= k < n /\ P k = true.
Proof.
  intros Hn. pattern n. apply natlike_ind; auto.
  - unfold zcount. rewrite zsum_0. lia.
  - intros k Hk IH H. unfold zcount, Z.succ in *. rewrite zsum_S in H by lia.
    destruct (P k) eqn:E; [exists k; split; [lia|exact E]|]. rewrite Z.add_0_r in H.
    destruct (IH H) as (k' & ? & ?). exists k'. split; [lia|assumption].
Qed.
Lemma zcount_nonneg n P : 0 <= n -> 0 <= zcount n P.
Proof.
  intros Hn. pose proof (zsum_bound n (fun k => if P k then 1 else 0) 0 1 Hn) as B.
  unfold zcount. assert (n * 0 <= zsum n (fun k => if P k then 1 else 0) <= n * 1); [|lia].
  apply B. intros k _. destruct (P k); lia.
Qed.
Lemma zcount_pos n P k : 0 <= k < n -> P k = true -> 0 < zcount n P.
Proof.
  intros Hk HP. assert (Hn : 0 <= n) by lia. revert Hk. pattern n. apply natlike_ind; auto; [lia|].
  intros n' Hn' IH Hk. unfold zcount, Z.succ in *. rewrite zsum_S by lia.
  pose proof (zcount_nonneg n' P Hn') as Hp. unfold zcount in Hp.
  destruct (Z.eq_dec k n') as [->|]; [rewrite HP; lia|]. specialize (IH ltac:(lia)). destruct (P n'); lia.
Qed.
(** Fewer than three values count iff all of them lie in some pair. *)
Lemma zcount_lt1 n P : 0 <= n -> zcount n P < 1 -> forall k, 0 <= k < n -> P k = false.
Proof.
  intros Hn H k Hk. destruct (P k) eqn:E; [|reflexivity]. pose proof (zcount_pos n P k Hk E). lia.
Qed.
Lemma zcount_lt2 n P : 0 <= n -> zcount n P < 2 -> exists a, forall k, 0 <= k < n -> P k = true -> k = a.
Proof.
  intros Hn. pattern n. apply natlike_ind; auto.
  - intros _. exists 0. intros; lia.
  - intros n' Hn' IH H. unfold zcount, Z.succ in *. rewrite zsum_S in H by lia. destruct (P n') eqn:E.
    + exists n'. intros k Hk HP. destruct (Z.eq_dec k n'); [assumption|].
      rewrite (zcount_lt1 n' P Hn') in HP; [discriminate|unfold zcount; lia|lia].
    + destruct IH as (a & Ha); [lia|]. exists a. intros k Hk HP.
      destruct (Z.eq_dec k n') as [->|]; [congruence|]. apply Ha; [lia|assumption].
Qed.
Lemma zcount_lt3 n P : 0 <= n -> zcount n P < 3 -> exists a b, forall k, 0 <= k < n -> P k = true -> k = a \/ k = b.
Proof.
  intros Hn. pattern n. apply natlike_ind; auto.
  - intros _. exists 0, 0. intros; lia.
  - intros n' Hn' IH H. unfold zcount, Z.succ in *. rewrite zsum_S in H by lia. destruct (P n') eqn:E.
    + destruct (zcount_lt2 n' P Hn') as (a & Ha); [unfold zcount; lia|].
      exists a, n'. intros k Hk HP. destruct (Z.eq_dec k n'); [right; assumption|].
      left. apply Ha; [lia|assumption].
    + destruct IH as (a & b & Ha); [lia|]. exists a, b. intros k Hk HP.
      destruct (Z.eq_dec k n') as [->|]; [congruence|]. apply Ha; [lia|assumption].
Qed.
Lemma zcount_pair n P a b : 0 <= n -> (forall k, 0 <= k < n -> P k = true -> k = a \/ k = b) -> zcount n P < 3.
Proof.
  intros Hn H.
  assert (G : forall l, (forall k, 0 <= k < n -> P k = true -> In k l) -> zcount n P <= Z.of_nat (length l)).
  { clear a b H. revert P. pattern n. apply natlike_ind; auto.
    - intros P l _. unfold zcount. rewrite zsum_0. lia.
    - intros n' Hn' IH P l H. unfold zcount, Z.succ in *. rewrite zsum_S by lia.
      specialize (IH P). destruct (P n') eqn:E.
      + assert (Hin : In n' l) by (apply H; [lia|assumption]).
        apply in_split in Hin. destruct Hin as (l1 & l2 & ->).
        specialize (IH (l1 ++ l2)). rewrite app_length in *. cbn [length].
        assert (zsum n' (fun k => if P k then 1 else 0) <= Z.of_nat (length l1 + length l2)); [|lia].
        apply IH. intros k Hk HP. specialize (H k ltac:(lia) HP). apply in_app_or in H. apply in_or_app.
        destruct H as [H|[H|H]]; [left; assumption|lia|right; assumption].
      + rewrite Z.add_0_r. apply IH. intros k Hk HP. apply H; [lia|assumption]. }
  specialize (G [a; b]). cbn [length In] in G.
  assert (zcount n P <= 2); [|lia]. apply G. intros k Hk HP. destruct (H k Hk HP); [left|right; left]; congruence.
Qed.
(** At most two values: all pixels of the region have one of two values. *)
Theorem C24_is_binary m im x y w h :
  area m im x y w h -> icc im = 1 -> bytes m im ->
  exists b, IsBinary m im x y w h = Ok b /\
    (b = true <-> exists u v, forall i j, inside w h 1 i j 0 ->
       pixel m im (x + i) (y + j) 0 = u \/ pixel m im (x + i) (y + j) 0 = v).
Proof.
  intros [W R] C B. destruct (IsBinary_value m im x y w h W C R (bytes_roi _ _ _ _ _ _ B R)) as (b & He & Hb).
  exists b. split; [exact He|]. rewrite Hb.
  assert (Hpos : forall v, 0 <? zsum h (fun j => zcount w (fun i => pixel m im (x + i) (y + j) 0 =? v)) = true <->
    exists i j, inside w h 1 i j 0 /\ pixel m im (x + i) (y + j) 0 = v).
  { intros v. rewrite Z.ltb_lt. assert (Hw : 0 < w) by apply R. assert (Hh : 0 < h) by apply R. split.
    - intros H.
      assert (Hj : exists j, 0 <= j < h /\ 0 < zcount w (fun i => pixel m im (x + i) (y + j) 0 =? v)).
      { clear -H Hw Hh. assert (Hh' : 0 <= h) by lia. clear Hh. revert H. pattern h. apply natlike_ind; auto.
        - rewrite zsum_0. lia.
        - intros k Hk IH H. unfold Z.succ in *. rewrite zsum_S in H by lia.
          pose proof (zcount_nonneg w (fun i => pixel m im (x + i) (y + k) 0 =? v) ltac:(lia)).
          destruct (Z_lt_dec 0 (zcount w (fun i => pixel m im (x + i) (y + k) 0 =? v))).
          + exists k. split; [lia|assumption].
          + destruct IH as (j & ? & ?); [lia|]. exists j. split; [lia|assumption]. }
      destruct Hj as (j & Hj & Hc). apply zcount_pos_witness in Hc; [|lia]. destruct Hc as (i & Hi & Hp).
      exists i, j. split; [unfold inside; lia|]. apply Z.eqb_eq. exact Hp.
    - intros (i & j & (Hi & Hj & _) & Hp).
      assert (Hj' : 0 < zcount w (fun i => pixel m im (x + i) (y + j) 0 =? v)).
      { apply (zcount_pos w _ i); [lia|]. apply Z.eqb_eq. exact Hp. }
      clear -Hj Hj' Hw. assert (Hh' : 0 <= h) by lia. revert Hj. pattern h. apply natlike_ind; auto; [lia|].
      intros k Hk IH Hj. unfold Z.succ in *. rewrite zsum_S by lia.
      assert (Hnn : 0 <= zsum k (fun j => zcount w (fun i => pixel m im (x + i) (y + j) 0 =? v))).
      { pattern k. apply natlike_ind; auto; [rewrite zsum_0; lia|].
        intros k' Hk' IHk. unfold Z.succ. rewrite zsum_S by lia.
        pose proof (zcount_nonneg w (fun i => pixel m im (x + i) (y + k') 0 =? v) ltac:(lia)). lia. }
      pose proof (zcount_nonneg w (fun i => pixel m im (x + i) (y + k) 0 =? v) ltac:(lia)).
      destruct (Z.eq_dec j k) as [->|]; [lia|]. specialize (IH ltac:(lia)). lia. }
  split.
  - intros H. apply zcount_lt3 in H; [|lia]. destruct H as (u & v & H). exists u, v. intros i j Hi.
    apply H; [apply (bytes_at m im x y w h); auto; rewrite C; exact Hi|].
    apply Hpos. exists i, j. split; [exact Hi|reflexivity].
  - intros (u & v & H). apply (zcount_pair 256 _ u v); [lia|]. intros k Hk HP.
    apply Hpos in HP. destruct HP as (i & j & Hi & <-). apply H. exact Hi.
Qed.
Example C24_case : area emem (img 1 5 4 3 16) 1 1 3 2 /\ area emem (img 2 4 3 3 12) 0 1 3 2 /\
  area emem (img 1 5 4 1 16) 1 1 3 2 /\ bytes emem (img 1 5 4 1 16).
Proof. split; [solve_area|]. split; [solve_area|]. split; [solve_area|apply emem_bytes]. Qed.
Print Assumptions C24_is_equal.
Print Assumptions C24_is_binary.

(** ** C25 *)
Theorem C25_accumulate m im x y w h r :
  area m im x y w h -> Z.of_nat (length r) = w * icc im * h ->
  exists r', Accumulate m im x y w h r = Ok r' /\ length r' = length r /\
    forall i j c, inside w h (icc im) i j c ->
      entry r' (j * (w * icc im) + i * icc im + c)
      = (entry r (j * (w * icc im) + i * icc im + c) + pixel m im (x + i) (y + j) c) mod W32.
Proof. intros [W R] L. apply Accumulate_value; assumption. Qed.
(** [Throw r]: the exception leaves the array [r] as it was. *)
Theorem C25_accumulate_wrong_length m im x y w h r :
  area m im x y w h -> Z.of_nat (length r) <> w * icc im * h ->
  Accumulate m im x y w h r = Throw r.
Proof.
  intros [W R] E. unfold Accumulate. rewrite (valid_roi_ok m) by assumption.
  rewrite (u32_width m im x w) by (auto; first [apply R|destruct R; lia]).
  pose proof (gray_area m im x y w h W R). pose proof (wf_cc_pos _ _ W).
  assert (Hwc : 0 < w * icc im) by (destruct R; nia). assert (0 < h) by apply R.
  destruct (OptimiseRoi (w * icc im) h [im]) as [w' h'] eqn:Ho.
  assert (Hwh : w' * h' = w * icc im * h).
  { destruct (OptimiseRoi_cases (w * icc im) h [im]) as [E1|(E1 & _)]; try nia; rewrite E1 in Ho;
      injection Ho as <- <-; nia. }
  rewrite Hwh, (u32_small (w * icc im * h)) by nia.
  destruct (Z.eqb_spec (Z.of_nat (length r)) (w * icc im * h)); [contradiction|reflexivity].
Qed.
Example C25_case : area emem (img 1 5 4 3 16) 1 1 3 2 /\ Z.of_nat (length (repeat 7 18)) = 3 * 3 * 2.
Proof. split; [solve_area|reflexivity]. Qed.
Print Assumptions C25_accumulate.
Print Assumptions C25_accumulate_wrong_length.

(** ** C26, C27 *)
Theorem C26_get_set m im x y v : wf m im -> icc im = 1 -> 0 <= x < iw im -> 0 <= y < ih im ->
  exists m', SetPixel m im x y v = Ok m' /\ GetPixel m' im x y = Ok v /\
    (forall p, p <> px im x y 0 -> get m' p = get m p) /\ (forall b, len m' b = len m b).
Proof.
  intros W C Hx Hy. rewrite SetPixel_value by (auto; lia).
  destruct (Z.ltb_spec x (iw im)); [|lia]. destruct (Z.ltb_spec y (ih im)); [|lia]. cbn [andb].
  exists (upd m (px im x y 0) v). split; [reflexivity|].
  assert (L : forall b, len (upd m (px im x y 0) v) b = len m b) by (intros; apply len_upd).
  split; [|split].
  - rewrite GetPixel_value by (auto; try lia; apply (wf_same_len m); auto).
    destruct (Z.ltb_spec x (iw im)); [|lia]. destruct (Z.ltb_spec y (ih im)); [|lia]. cbn [andb].
    f_equal. unfold pixel. apply get_upd_same.
  - intros p Hp. apply get_upd_other. auto.
  - exact L.
Qed.
Theorem C26_get_reads m im x y : wf m im -> icc im = 1 -> 0 <= x < iw im -> 0 <= y < ih im ->
  GetPixel m im x y = Ok (pixel m im x y 0).
Proof.
  intros W C Hx Hy. rewrite GetPixel_value by (auto; lia).
  destruct (Z.ltb_spec x (iw im)); [|lia]. destruct (Z.ltb_spec y (ih im)); [|lia]. reflexivity.
Qed.
Theorem C26_outside_throws m im x y v : wf m im -> icc im = 1 -> 0 <= x -> 0 <= y ->
  iw im <= x \/ ih im <= y ->
  rejected (GetPixel m im x y) m /\ rejected (SetPixel m im x y v) m.
Proof.
  intros W C Hx Hy Ho. unfold rejected. rewrite GetPixel_value, SetPixel_value by (auto; lia).
  destruct (Z.ltb_spec x (iw im)), (Z.ltb_spec y (ih im)); cbn [andb]; auto; lia.
Qed.
Theorem C26_set_points m im X Y v : wf m im -> icc im = 1 -> X <> [] -> length X = length Y ->
  (forall x y, In (x, y) (combine X Y) -> 0 <= x < iw im /\ 0 <= y < ih im) ->
  exists m', SetPixel2 m im X Y v = Ok m' /\
    (forall x y, In (x, y) (combine X Y) -> pixel m' im x y 0 = v) /\
    (forall p, (forall x y, In (x, y) (combine X Y) -> p <> px im x y 0) -> get m' p = get m p) /\
    (forall b, len m' b = len m b).
Proof.
  intros W C Hne Hl Hin. destruct (setpixel_loop_ok im v C (combine X Y) m W Hin) as (m' & He & L & Hv & Hf).
  exists m'. unfold SetPixel2. rewrite (wf_not_empty m) by assumption. rewrite gray_true by assumption.
  rewrite Hl, Z.eqb_refl. destruct (Z.eqb_spec (Z.of_nat (length Y)) 0) as [E|_].
  - exfalso. apply Hne. destruct X; [reflexivity|]. cbn in Hl. lia.
  - cbn [orb negb]. auto.
Qed.
Example C26_case : wf emem (img 1 5 4 1 8) /\ ([3; 4; 0] : list Z) <> [] /\
  (forall x y, In (x, y) (combine [3; 4; 0] [1; 2; 3]) -> 0 <= x < 5 /\ 0 <= y < 4).
Proof.
  split; [solve_wf|]. split; [discriminate|].
  cbn [combine In]. intros x y [E|[E|[E|[]]]]; injection E as <- <-; lia.
Qed.
Print Assumptions C26_get_set.
Print Assumptions C26_get_reads.
Print Assumptions C26_outside_throws.
Print Assumptions C26_set_points.

Definition C27_claim : Prop :=
  forall m im X Y v m', wf m im -> SetPixel2 m im X Y v = Throw m' -> forall p, get m' p = get m p.
Theorem C27_bulk_write_refuted : ~ C27_claim.
Proof.
  intros H.
  assert (E : exists m', SetPixel2 ramp (img 1 1 1 1 1) [0; 5] [0; 0] 9 = Throw m' /\ get m' (1, 0) = 9).
  { eexists. split; [vm_compute; reflexivity|reflexivity]. }
  destruct E as (m' & E & G). specialize (H ramp (img 1 1 1 1 1) [0; 5] [0; 0] 9 m' ltac:(solve_wf) E (1, 0)).
  rewrite G in H. vm_compute in H. discriminate H.
Qed.
Print Assumptions C27_bulk_write_refuted.

(** ** C30 *)
Theorem C30_replace_channel m ch xc yc rgb xr yr w h id :
  area m ch xc yc w h -> area m rgb xr yr w h -> icc ch = 1 -> icc rgb = 3 -> 0 <= id < 3 ->
  disjoint rgb xr yr w h ch xc yc w h ->
  writes (ReplaceChannel m ch xc yc rgb xr yr w h id) m rgb xr yr w h
    (fun i j c => if c =? id then pixel m ch (xc + i) (yc + j) 0
                  else pixel m rgb (xr + i) (yr + j) c).
Proof. intros [] [] ? ? ? ?. apply ReplaceChannel_writes; assumption. Qed.
Theorem C30_rgb_to_rgba m inp xi yi out xo yo w h :
  area m inp xi yi w h -> area m out xo yo w h -> icc inp = 3 -> icc out = 4 ->
  disjoint out xo yo w h inp xi yi w h ->
  writes (RgbToRgba m inp xi yi out xo yo w h) m out xo yo w h
    (fun i j c => if c =? 3 then 255 else pixel m inp (xi + i) (yi + j) c).
Proof. intros [] [] ? ? ?. apply RgbToRgba_writes; assumption. Qed.
Theorem C30_rgba_to_rgb m inp xi yi out xo yo w h :
  area m inp xi yi w h -> area m out xo yo w h -> icc inp = 4 -> icc out = 3 ->
  disjoint out xo yo w h inp xi yi w h ->
  writes (RgbaToRgb m inp xi yi out xo yo w h) m out xo yo w h
    (fun i j c => pixel m inp (xi + i) (yi + j) c).
Proof. intros [] [] ? ? ?. apply RgbaToRgb_writes; assumption. Qed.
Theorem C30_round_trip m inp xi yi mid xm ym back xb yb w h :
  area m inp xi yi w h -> area m mid xm ym w h -> area m back xb yb w h ->
  icc inp = 3 -> icc mid = 4 -> icc back = 3 ->
  disjoint mid xm ym w h inp xi yi w h -> disjoint back xb yb w h mid xm ym w h ->
  exists m1 m2, RgbToRgba m inp xi yi mid xm ym w h = Ok m1 /\
    RgbaToRgb m1 mid xm ym back xb yb w h = Ok m2 /\
    forall i j c, inside w h 3 i j c ->
      pixel m2 back (xb + i) (yb + j) c = pixel m inp (xi + i) (yi + j) c.
Proof.
  intros [W1 R1] [Wm Rm] [Wb Rb] C1 Cm Cb D Db.
  destruct (RgbToRgba_writes m inp xi yi mid xm ym w h) as (m1 & E1 & V1 & L1 & _); auto.
  destruct (RgbaToRgb_writes m1 mid xm ym back xb yb w h) as (m2 & E2 & V2 & _ & _); auto;
    try (apply (wf_same_len m); assumption).
  exists m1, m2. split; [exact E1|]. split; [exact E2|]. intros i j c (Hi & Hj & Hc).
  rewrite V2 by (unfold inside; lia). rewrite V1 by (unfold inside; lia).
  destruct (Z.eqb_spec c 3); [lia|reflexivity].
Qed.
Example C30_case : area emem (img 1 5 4 3 16) 1 1 3 2 /\ area emem (img 2 4 3 4 16) 0 1 3 2 /\
  area emem (img 3 9 9 1 9) 2 3 3 2 /\
  disjoint (img 2 4 3 4 16) 0 1 3 2 (img 1 5 4 3 16) 1 1 3 2 /\ disjoint (img 1 5 4 3 16) 1 1 3 2 (img 3 9 9 1 9) 2 3 3 2.
Proof. split; [solve_area|]. split; [solve_area|]. split; [solve_area|]. split; solve_disjoint. Qed.
Print Assumptions C30_replace_channel.
Print Assumptions C30_rgb_to_rgba.
Print Assumptions C30_rgba_to_rgb.
Print Assumptions C30_round_trip.

(** ** C31: images of 2^32 bytes and more *)

(** As [wf], but the size of the image in bytes is only bounded by its memory; width and
    row size are 32-bit values. *)
Record wf_large (m : mem) (im : image) : Prop := mkWfLarge {
  wfl_data : idata im <> None;
  wfl_w : 0 < iw im < W32;
  wfl_h : 0 < ih im < W32;
  wfl_cc : icc im = 1 \/ icc im = 3 \/ icc im = 4;
  wfl_rs : iw im * icc im <= irs im < W32;
  wfl_lo : 0 <= snd (ibase im);
  wfl_hi : snd (ibase im) + ih im * irs im <= len m (fst (ibase im))
}.
Definition C31_claim : Prop :=
  forall m im x y w h v, wf_large m im -> roi_in im x y w h ->
  writes (Fill m im x y w h v) m im x y w h (fun _ _ _ => v).
Definition big : mem := fun b => mkBlock (65536 * 65536) (fun o => 0).
(** 65536 x 65536 gray-scale image, region of width 65535: height * rowSize = 2^32 wraps to
    zero, the loop over the rows ends at once and nothing is written. *)
Theorem C31_four_gigabytes_refuted : ~ C31_claim.
Proof.
  intros H. specialize (H big (img 1 65536 65536 1 65536) 0 0 65535 65536 7).
  destruct H as (m' & He & Hv & _).
  - constructor; cbn; unfold W32; try discriminate; lia.
  - solve_roi.
  - assert (E : Fill big (img 1 65536 65536 1 65536) 0 0 65535 65536 7 = Ok big) by (vm_compute; reflexivity).
    rewrite E in He. injection He as <-.
    specialize (Hv 0 0 0 ltac:(unfold inside; cbn; lia)). vm_compute in Hv. discriminate Hv.
Qed.
Print Assumptions C31_four_gigabytes_refuted.
(** Below 2^32 bytes the pixelwise functions are right: [C01_two_input_pixelwise], [C03_invert], ... *)

(** ** C82: value-returning forms of LookupTable on colour images *)
Definition C82_claim : Prop :=
  forall nb junk table m inp x y w h,
  area m inp x y w h -> bytes m inp -> length table = 256%nat -> fst (ibase inp) <> nb ->
  returns_image (value1_roi (LookupTable table) 1 nb junk m inp x y w h) m nb w h (icc inp)
    (fun i j c => nth (Z.to_nat (pixel m inp (x + i) (y + j) c)) table 0).
Theorem C82_lookup_value_form_refuted : ~ C82_claim.
Proof.
  intros H. specialize (H 2 (fun _ => 0) (repeat 0 256) ramp (img 1 1 1 3 3) 0 0 1 1).
  destruct H as (m' & out & He & _); try solve_area; try apply ramp_bytes; try reflexivity; [cbn; lia|].
  vm_compute in He. discriminate He.
Qed.
Theorem C82_lookup_value_form_gray_partial nb junk table m inp x y w h :
  area m inp x y w h -> bytes m inp -> length table = 256%nat -> fst (ibase inp) <> nb -> icc inp = 1 ->
  returns_image (value1_roi (LookupTable table) 1 nb junk m inp x y w h) m nb w h (icc inp)
    (fun i j c => nth (Z.to_nat (pixel m inp (x + i) (y + j) c)) table 0).
Proof.
  intros [W R] B L Hn C. unfold value1_roi. rewrite (valid_roi_ok m) by assumption. rewrite C.
  pose proof (gray_area m inp x y w h W R) as Ha. rewrite C in Ha.
  pose proof (generate_area m nb junk (ity inp) w h 1 (roi_w _ _ _ _ _ R) (roi_h _ _ _ _ _ R) (or_introl eq_refl) Ha) as G.
  destruct (generate m nb junk (ity inp) w h 1) as [m1 out].
  destruct G as (Ao & Ew & Eh & Ec & Eb & Hg & Hl).
  eapply returns_of_writes; eauto.
  - apply (C03_lookup_table table m1 inp x y out 0 0 w h); auto.
    + split; [apply (fresh_wf m m1 nb); auto|assumption].
    + congruence.
    + apply (fresh_bytes m m1 nb); auto.
    + apply hazard_of_disjoint, disjoint_blocks. congruence.
  - intros i j c Hi. cbv beta. rewrite !(fresh_pixel m m1 nb) by assumption. reflexivity.
Qed.
Example C82_case : area emem (img 1 5 4 1 16) 1 1 3 2 /\ bytes emem (img 1 5 4 1 16) /\ length (repeat 3 256) = 256%nat.
Proof. split; [solve_area|]. split; [apply emem_bytes|reflexivity]. Qed.
Print Assumptions C82_lookup_value_form_refuted.
Print Assumptions C82_lookup_value_form_gray_partial.
