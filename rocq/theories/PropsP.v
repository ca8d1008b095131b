(** Properties of LightCorrection: C77, C78 and C99 to C101. *)
From Coq Require Import ZArith List Bool Lia Sorted.
From Verif Require Import Base Image Spec BaseProofs ImgFun ImgLemmas Arith Light LightProofs PropsA.
Import ListNotations.
Open Scope Z_scope.

Ltac Zify.zify_post_hook ::= Z.div_mod_to_equations.

(** A gray-scale image in memory [m]. *)
Definition gray (m : mem) (im : image) : Prop := wf m im /\ icc im = 1 /\ bytes m im.
Definition at_px (im : image) (x y : Z) : Prop := 0 <= x < iw im /\ 0 <= y < ih im.

(** [M] is the brightest pixel value of the image apart from 255. *)
Definition brightest (m : mem) (im : image) (M : Z) : Prop :=
  0 < M < 255 /\ (exists x y, at_px im x y /\ pixel m im x y 0 = M) /\
  forall x y, at_px im x y -> pixel m im x y 0 < 255 -> pixel m im x y 0 <= M.

(** The image has two different values in 1..254. *)
Definition contrast (m : mem) (im : image) : Prop :=
  exists x y x' y', at_px im x y /\ at_px im x' y' /\
    0 < pixel m im x y 0 < 255 /\ 0 < pixel m im x' y' 0 < 255 /\ pixel m im x y 0 <> pixel m im x' y' 0.

Lemma gray_smps m im : gray m im -> wf m im /\ smps m im.
Proof. intros (W & C & B). split; [exact W|]. apply smps_bytes; assumption. Qed.

Lemma extremes_brightest m im mn mx : gray m im -> extremes m im mn mx -> brightest m im mx.
Proof.
  intros (W & C & B) ((E1 & E2 & E3) & _ & (i & j & Hi & Hj & Es) & Hall). split; [lia|]. split.
  - exists i, j. split; [split; assumption|]. rewrite <- smp_pixel by assumption. exact Es.
  - intros x y (Hx & Hy) Hs. rewrite <- smp_pixel in * by assumption.
    pose proof (smps_bytes m im W C B x y Hx Hy). specialize (Hall x y Hx Hy).
    destruct (Z.eq_dec (smp m im x y) 0); lia.
Qed.

(** ** C77 *)

(** analyze returns when there are two different values in 1..254 and throws otherwise. *)
Theorem C77_analysis m im st : gray m im ->
  (contrast m im -> exists st', analyze m im st = Ok st') /\
  (~ contrast m im -> exists st', analyze m im st = Throw st').
Proof.
  intros G. destruct (gray_smps m im G) as (W & S). destruct G as (_ & C & B).
  destruct (analyze_value m im st W S) as [(mn & mx & st' & X & E & _)|(Heq & E)].
  - split; [intros _; exists st'; exact E|]. intros N. exfalso. apply N.
    destruct X as ((E1 & E2 & E3) & (i & j & Hi & Hj & Es) & (i' & j' & Hi' & Hj' & Es') & _).
    rewrite smp_pixel in Es, Es' by assumption.
    exists i, j, i', j'. unfold at_px. repeat split; lia.
  - split; [|intros _; eexists; exact E].
    intros (x & y & x' & y' & (Hx & Hy) & (Hx' & Hy') & Hs & Hs' & Hne). exfalso. apply Hne.
    rewrite <- !smp_pixel in * by assumption. apply Heq; assumption.
Qed.
Print Assumptions C77_analysis.

(** The value a pixel [p] may have after the correction when the analysed image has [v] at
    this place and [M] is its brightest value: [p] itself where the analysed pixel is 0 or
    255, otherwise [p] M / [v] to within 0.52, clipped at 255. *)
Definition corrected (M v p r : Z) : Prop :=
  0 <= r <= 255 /\
  (v = 0 \/ v = 255 -> r = p) /\
  (0 < v < 255 -> 50 * Z.abs (r * v - Z.min (p * M) (255 * v)) <= 26 * v) /\
  (0 < v < 255 -> p = v -> r = M).

(** The value written is a function of the two pixels. *)
Theorem C77_roi m im st st' : gray m im -> analyze m im st = Ok st' ->
  exists M f, brightest m im M /\
    (forall v p, 0 <= v <= 255 -> v <= M \/ v = 255 -> 0 <= p <= 255 -> corrected M v p (f v p)) /\
    forall m2 im2 x y w h, gray m2 im2 -> roi_in im2 x y w h -> x + w <= iw im -> y + h <= ih im ->
      writes (correct_roi m2 st' im2 x y w h) m2 im2 x y w h
        (fun i j _ => f (pixel m im (x + i) (y + j) 0) (pixel m2 im2 (x + i) (y + j) 0)).
Proof.
  intros G E. destruct (gray_smps m im G) as (W & S).
  destruct (analyze_value m im st W S) as [(mn & mx & st1 & X & E1 & K)|(_ & E1)]; [|congruence].
  rewrite E in E1. injection E1 as <-.
  pose proof (extremes_brightest m im mn mx G X) as Br.
  destruct G as (_ & C & B). destruct X as (X0 & _ & _ & Xall).
  exists mx, (fun v p => scale p (factor (if v =? 0 then 256 else 0) mx v)). split; [exact Br|]. split.
  - intros v p Hv Hvm Hp. unfold corrected.
    destruct (Z.eq_dec v 0) as [->|Hv0].
    { unfold factor. cbn [Z.eqb]. rewrite orb_true_r. rewrite scale_id by lia. repeat split; lia. }
    destruct (Z.eqb_spec v 0); [lia|].
    destruct (Z.eq_dec v 255) as [->|Hv1].
    { unfold factor. destruct (Z.ltb_spec mx 255); [|lia]. cbn [orb]. rewrite scale_id by lia. repeat split; lia. }
    unfold factor. destruct (Z.ltb_spec mx v); [lia|]. destruct (Z.ltb_spec v 0); [lia|]. cbn [orb].
    pose proof (scale_near p v mx ltac:(lia) ltac:(lia) ltac:(lia)) as N. cbv zeta in N.
    split; [apply N|]. split; [lia|]. split; [intros _; apply N|].
    intros _ ->. apply scale_self; lia.
  - intros m2 im2 x y w h (W2 & C2 & B2) R Hxw Hyh.
    pose proof (area_small m im W). pose proof (wf_w _ _ W). pose proof (wf_h _ _ W).
    assert (R' : 0 <= x /\ 0 <= y /\ 0 < w /\ 0 < h /\ x + w <= iw im2 /\ y + h <= ih im2) by (destruct R; repeat split; assumption).
    destruct R' as (R1 & R2 & R3 & R4 & R5 & R6).
    destruct (correct_roi_value m2 st' im2 x y w h (iw im) (ih im)) as (m' & E' & Hl & Hv & Hf); auto.
    { apply K. } { apply K. } { nia. }
    { intros i j Hi Hj. split; [apply (smps_bytes m2 im2 W2 C2 B2); lia|].
      rewrite (kn_len _ _ _ _ _ K). split; [nia|]. rewrite (kn_val _ _ _ _ _ K) by lia.
      apply factor_range; [lia|]. pose proof (S (x + i) (y + j) ltac:(lia) ltac:(lia)). lia. }
    exists m'. split; [exact E'|]. split.
    + intros i j c (Hi & Hj & Hc). assert (c = 0) as -> by lia.
      rewrite <- (smp_pixel m' im2) by (auto; eapply ReduceProofs.wf_same_len; eauto).
      rewrite Hv by assumption. rewrite (kn_val _ _ _ _ _ K) by lia.
      rewrite <- (smp_pixel m2 im2) by assumption. f_equal.
      rewrite <- (smp_pixel m im) by assumption.
      pose proof (S (x + i) (y + j) ltac:(lia) ltac:(lia)) as Sv.
      specialize (Xall (x + i) (y + j) ltac:(lia) ltac:(lia)).
      set (v := smp m im (x + i) (y + j)) in *. unfold factor.
      destruct (Z.eqb_spec v 0) as [->|Hv0].
      * destruct (Z.ltb_spec mx 0); [lia|]. destruct (Z.ltb_spec 0 mn); [|lia]. reflexivity.
      * destruct (Z.ltb_spec mx v); [reflexivity|]. destruct (Z.ltb_spec v mn); destruct (Z.ltb_spec v 0); try lia; reflexivity.
    + split; [exact Hl|]. intros p Hp. apply Hf. intros i j Hi Hj He. apply (Hp i j 0).
      * split; [exact Hi|]. split; [exact Hj|lia].
      * rewrite He. unfold px, padd. rewrite (dataptr_base m2 im2 W2), C2. f_equal. lia.
Qed.
Print Assumptions C77_roi.

(** The analysed image itself becomes uniform: every pixel apart from 0 and 255 becomes the
    brightest one. *)
Theorem C77_flattens m im st st' : gray m im -> analyze m im st = Ok st' ->
  exists M, brightest m im M /\
    writes (correct m st' im) m im 0 0 (iw im) (ih im)
      (fun i j _ => let v := pixel m im i j 0 in if (v =? 0) || (v =? 255) then v else M).
Proof.
  intros G E. destruct (C77_roi m im st st' G E) as (M & f & Br & Hf & Hw).
  exists M. split; [exact Br|]. destruct G as (W & C & B).
  pose proof (wf_w _ _ W) as P1. pose proof (wf_h _ _ W) as P2.
  destruct (Hw m im 0 0 (iw im) (ih im)) as (m' & E' & Hv & Ho); try lia.
  { split; [exact W|]. split; assumption. }
  { constructor; lia. }
  exists m'. split.
  { unfold correct. assert (V : valid_image im = true).
    { unfold valid_image. rewrite (wf_not_empty m im W), (color_ok m im W). reflexivity. }
    rewrite V. exact E'. }
  split; [|exact Ho]. intros i j c I. rewrite Hv by exact I. destruct I as (Hi & Hj & Hc).
  rewrite !Z.add_0_l. cbv zeta.
  pose proof (B i j 0 Hi Hj ltac:(lia)) as Bv. destruct Br as (Br0 & _ & Br1).
  specialize (Br1 i j (conj Hi Hj)). set (v := pixel m im i j 0) in *.
  destruct (Hf v v) as (_ & K1 & _ & K2); try lia.
  destruct (Z.eqb_spec v 0); [apply K1; auto|]. destruct (Z.eqb_spec v 255); [apply K1; auto|].
  cbn [orb]. apply K2; [lia|reflexivity].
Qed.
Print Assumptions C77_flattens.

Example C77_example : gray emem (img 1 5 3 1 8) /\ contrast emem (img 1 5 3 1 8) /\
  exists M, brightest emem (img 1 5 3 1 8) M.
Proof.
  assert (G : gray emem (img 1 5 3 1 8)).
  { split; [solve_wf|]. split; [reflexivity|apply emem_bytes]. }
  assert (C : contrast emem (img 1 5 3 1 8)).
  { exists 0, 0, 1, 0. unfold at_px. cbn. repeat split; lia. }
  split; [exact G|]. split; [exact C|].
  destruct (proj1 (C77_analysis _ _ fresh G) C) as (st & E).
  destruct (C77_flattens _ _ _ _ G E) as (M & Br & _). exists M. exact Br.
Qed.
Example C77_example_values : corrected 200 100 50 100 /\ corrected 200 100 130 255 /\ ~ corrected 200 100 50 101 /\
  ~ corrected 200 100 100 199.
Proof. unfold corrected. repeat split; try lia. Qed.

(** ** C78 *)

(** The states an object can be in: after its declaration and after analyses, successful or
    not. *)
Inductive history : light -> Prop :=
| declared : history fresh
| analysed m im st st' : history st -> wf m im -> bytes m im -> analyze m im st = Ok st' -> history st'
| failed m im st st' : history st -> wf m im -> bytes m im -> analyze m im st = Throw st' -> history st'.

(** correct never has undefined behaviour. *)
Definition C78_claim : Prop := forall st m im x y w h,
  history st -> wf m im -> bytes m im -> is_u32 x -> is_u32 y -> is_u32 w -> is_u32 h ->
  correct_roi m st im x y w h <> UB.
Theorem C78_claim_refuted : ~ C78_claim.
Proof.
  intros C. apply (C fresh emem (img 1 5 3 1 8) 0 0 5 3); unfold is_u32, W32; try lia.
  - constructor.
  - solve_wf.
  - apply emem_bytes.
  - reflexivity.
Qed.
Print Assumptions C78_claim_refuted.

(** Nor when analyze was called before and threw an exception (the factors are then 0). *)
Definition C78_failed_claim : Prop := forall st st' m0 im0 m im x y w h,
  history st -> wf m0 im0 -> bytes m0 im0 -> analyze m0 im0 st = Throw st' ->
  wf m im -> bytes m im -> iw im = iw im0 -> ih im = ih im0 ->
  is_u32 x -> is_u32 y -> is_u32 w -> is_u32 h ->
  correct_roi m st' im x y w h <> UB.
Theorem C78_failed_claim_refuted : ~ C78_failed_claim.
Proof.
  intros C. set (m0 := fun _ : Z => mkBlock 64 (fun _ => 7)). set (im := img 1 5 3 1 8).
  assert (W : wf m0 im) by solve_wf.
  assert (B : bytes m0 im) by (intros x y c _ _ _; cbn; lia).
  assert (E : match analyze m0 im fresh with
              | Throw st' => match correct_roi m0 st' im 0 0 5 3 with UB => true | _ => false end
              | _ => false end = true) by (vm_compute; reflexivity).
  destruct (analyze m0 im fresh) as [?|st'| |] eqn:E1; try discriminate E.
  destruct (correct_roi m0 st' im 0 0 5 3) eqn:E2; try discriminate E.
  refine (C fresh st' m0 im m0 im 0 0 5 3 declared W B E1 W B eq_refl eq_refl _ _ _ _ E2); unfold is_u32, W32; lia.
Qed.
Print Assumptions C78_failed_claim_refuted.

(** Nor after a successful analysis (of an image of another size). *)
Definition C78_size_claim : Prop := forall st st' m0 im0 m im x y w h,
  history st -> wf m0 im0 -> bytes m0 im0 -> analyze m0 im0 st = Ok st' ->
  wf m im -> bytes m im -> is_u32 x -> is_u32 y -> is_u32 w -> is_u32 h ->
  correct_roi m st' im x y w h <> UB.
Theorem C78_size_claim_refuted : ~ C78_size_claim.
Proof.
  intros C. set (m0 := fun _ : Z => mkBlock 64 (fun o => o + 7)).
  set (im0 := img 1 2 1 1 2). set (im := img 1 3 1 1 3).
  assert (W0 : wf m0 im0) by solve_wf.
  assert (B0 : bytes m0 im0).
  { intros x y c Hx Hy Hc. cbn in Hx, Hy, Hc. unfold pixel, get, px. cbn. lia. }
  assert (W : wf m0 im) by solve_wf.
  assert (B : bytes m0 im).
  { intros x y c Hx Hy Hc. cbn in Hx, Hy, Hc. unfold pixel, get, px. cbn. lia. }
  assert (E : match analyze m0 im0 fresh with
              | Ok st' => match correct_roi m0 st' im 0 0 3 1 with UB => true | _ => false end
              | _ => false end = true) by (vm_compute; reflexivity).
  destruct (analyze m0 im0 fresh) as [st'|?| |] eqn:E1; try discriminate E.
  destruct (correct_roi m0 st' im 0 0 3 1) eqn:E2; try discriminate E.
  refine (C fresh st' m0 im0 m0 im 0 0 3 1 declared W0 B0 E1 W B _ _ _ _ E2); unfold is_u32, W32; lia.
Qed.
Print Assumptions C78_size_claim_refuted.

(** What holds, for images with any number of channels: analyze never has undefined behaviour,
    and after a successful analysis correct returns for every region that lies inside both
    images. *)
Lemma bytes_smps m im : wf m im -> bytes m im -> smps m im.
Proof.
  intros W B i j Hi Hj. pose proof (wf_cc_pos _ _ W) as Hc.
  assert (D : i = i / icc im * icc im + i mod icc im) by (rewrite Z.mul_comm; apply Z.div_mod; lia).
  pose proof (Z.mod_pos_bound i (icc im) ltac:(lia)) as M.
  assert (Q : 0 <= i / icc im < iw im).
  { split; [apply Z.div_pos; lia|]. apply Z.div_lt_upper_bound; nia. }
  pose proof (B (i / icc im) j (i mod icc im) Q Hj M) as P.
  unfold smp. unfold pixel, px in P. rewrite (dataptr_base m im W). unfold padd.
  replace (snd (ibase im) + (j * irs im + i))
    with (snd (ibase im) + j * irs im + i / icc im * icc im + i mod icc im) by lia. exact P.
Qed.
Theorem C78_safe_partial m im st : wf m im -> bytes m im ->
  (exists st', analyze m im st = Ok st' /\
     forall m2 im2 x y w h, wf m2 im2 -> bytes m2 im2 -> roi_in im2 x y w h ->
       x + w <= iw im -> y + h <= ih im -> exists m', correct_roi m2 st' im2 x y w h = Ok m') \/
  (exists st', analyze m im st = Throw st').
Proof.
  intros W B. pose proof (bytes_smps m im W B) as S.
  destruct (analyze_value m im st W S) as [(mn & mx & st' & X & E & K)|(_ & E)]; [left|right; eexists; exact E].
  exists st'. split; [exact E|]. intros m2 im2 x y w h W2 B2 R Hxw Hyh.
  pose proof (area_small m im W). pose proof (wf_w _ _ W). pose proof (wf_h _ _ W).
  destruct X as (X0 & _).
  assert (R' : 0 <= x /\ 0 <= y /\ 0 < w /\ 0 < h /\ x + w <= iw im2 /\ y + h <= ih im2) by (destruct R; repeat split; assumption).
  destruct R' as (R1 & R2 & R3 & R4 & R5 & R6).
  destruct (correct_roi_value m2 st' im2 x y w h (iw im) (ih im)) as (m' & E' & _); auto.
  { apply K. } { apply K. } { nia. }
  { intros i j Hi Hj. split; [apply (bytes_smps m2 im2 W2 B2); lia|].
    rewrite (kn_len _ _ _ _ _ K). split; [nia|]. rewrite (kn_val _ _ _ _ _ K) by lia.
    apply factor_range; [lia|]. pose proof (S (x + i) (y + j) ltac:(lia) ltac:(lia)). lia. }
  exists m'. exact E'.
Qed.
Print Assumptions C78_safe_partial.
Example C78_example : wf emem (img 1 2 3 3 8) /\ bytes emem (img 1 2 3 3 8) /\ wf emem (img 2 9 9 4 40) /\
  roi_in (img 2 9 9 4 40) 1 1 1 2.
Proof. split; [solve_wf|]. split; [apply emem_bytes|]. split; [solve_wf|solve_roi]. Qed.

(** ** C99 *)

(** Colour images, which both functions accept: after the analysis of an image, correct leaves no
    channel of the same image with a value other than 0, 255 and one common value. *)
Definition C99_claim : Prop := forall m im st st', wf m im -> bytes m im -> analyze m im st = Ok st' ->
  exists m' M, correct m st' im = Ok m' /\
    forall x y c, 0 <= x < iw im -> 0 <= y < ih im -> 0 <= c < icc im ->
      pixel m' im x y c = 0 \/ pixel m' im x y c = 255 \/ pixel m' im x y c = M.
Theorem C99_claim_refuted : ~ C99_claim.
Proof.
  intros C. set (m0 := fun _ : Z => mkBlock 64 (fun o => 10 * o + 7)). set (im := img 1 2 1 3 6).
  assert (W : wf m0 im) by solve_wf.
  assert (B : bytes m0 im).
  { intros x y c Hx Hy Hc. cbn in Hx, Hy, Hc. unfold pixel, get, px, ibase, m0, im, img. cbn [bget fst snd icc irs idata]. lia. }
  assert (E2 : match analyze m0 im fresh with
               | Ok st' => match correct m0 st' im with Ok m' => (pixel m' im 0 0 2 =? 27) && (pixel m' im 1 0 0 =? 37) | _ => false end
               | _ => false end = true) by (vm_compute; reflexivity).
  destruct (analyze m0 im fresh) as [st'|?| |] eqn:E1; try discriminate E2.
  destruct (C m0 im fresh st' W B E1) as (m' & M & E3 & H). rewrite E3 in E2.
  apply andb_true_iff in E2 as [A1 A2]. apply Z.eqb_eq in A1, A2.
  pose proof (H 0 0 2 ltac:(cbn; lia) ltac:(cbn; lia) ltac:(cbn; lia)).
  pose proof (H 1 0 0 ltac:(cbn; lia) ltac:(cbn; lia) ltac:(cbn; lia)). lia.
Qed.
Print Assumptions C99_claim_refuted.

(** ** C100 *)

Definition raster (a b : Z * Z) : Prop := snd a < snd b \/ snd a = snd b /\ fst a < fst b.

Lemma sorted_app {A} (R : A -> A -> Prop) l1 : forall l2, StronglySorted R l1 -> StronglySorted R l2 ->
  (forall a b, In a l1 -> In b l2 -> R a b) -> StronglySorted R (l1 ++ l2).
Proof.
  induction l1 as [|a l1 IH]; intros l2 H1 H2 H; [exact H2|]. inversion H1 as [|? ? S F]; subst.
  cbn [app]. constructor.
  - apply IH; auto. intros x y Hx Hy. apply H; [right; exact Hx|exact Hy].
  - apply Forall_app. split; [exact F|]. apply Forall_forall. intros b Hb. apply H; [left; reflexivity|exact Hb].
Qed.
Lemma in_zseq n i : In i (map Z.of_nat (seq 0 (Z.to_nat n))) <-> 0 <= i < n.
Proof.
  rewrite in_map_iff. split.
  - intros (k & <- & Hk). apply in_seq in Hk. lia.
  - intros Hi. exists (Z.to_nat i). split; [lia|]. apply in_seq. lia.
Qed.
Lemma in_row m im j n a : In a (row_bad m im j n) <->
  snd a = j /\ 0 <= fst a < n /\ extreme (smp m im (fst a) j) = true.
Proof.
  unfold row_bad. rewrite in_map_iff. split.
  - intros (i & <- & H). apply filter_In in H as [H1 H2]. apply in_zseq in H1. cbn [fst snd]. auto.
  - intros (H1 & H2 & H3). exists (fst a). split; [destruct a; cbn in *; subst; reflexivity|].
    apply filter_In. split; [apply in_zseq; exact H2|exact H3].
Qed.
Lemma row_sorted m im j n : 0 <= n -> StronglySorted raster (row_bad m im j n).
Proof.
  intros Hn. revert n Hn. apply natlike_ind.
  - constructor.
  - intros n Hn IH. unfold Z.succ, row_bad. rewrite zseq_S by lia. rewrite filter_app, map_app.
    apply sorted_app; [exact IH| |].
    + cbn [filter]. destruct (extreme _); cbn [map]; repeat constructor.
    + intros a b Ha Hb. apply (in_row m im j n a) in Ha.
      apply in_map_iff in Hb as (i & <- & Hb). apply filter_In in Hb as [[<-|[]] _]. right. cbn [fst snd]. lia.
Qed.
Lemma in_all m im n h a : In a (all_bad m im n h) <->
  0 <= snd a < h /\ 0 <= fst a < n /\ extreme (smp m im (fst a) (snd a)) = true.
Proof.
  unfold all_bad. rewrite in_flat_map. split.
  - intros (j & Hj & Ha). apply in_zseq in Hj. apply in_row in Ha as (<- & H1 & H2). auto.
  - intros (H1 & H2 & H3). exists (snd a). split; [apply in_zseq; exact H1|]. apply in_row. auto.
Qed.
Lemma all_sorted m im n h : 0 <= n -> 0 <= h -> StronglySorted raster (all_bad m im n h).
Proof.
  intros Hn Hh. revert h Hh. apply natlike_ind.
  - constructor.
  - intros h Hh IH. unfold Z.succ, all_bad. rewrite zseq_S by lia. rewrite flat_map_app.
    apply sorted_app; [exact IH| |].
    + cbn [flat_map]. rewrite app_nil_r. apply row_sorted. exact Hn.
    + intros a b Ha Hb. apply (in_all m im n h a) in Ha.
      cbn [flat_map] in Hb. rewrite app_nil_r in Hb. apply in_row in Hb. left. lia.
Qed.

(** For an image of the analysed size, findIncorrectPixels returns every position with value 0 or
    255 once, in raster order, and no other. *)
Theorem C100_finds m0 im0 st st' m im : wf m0 im0 -> bytes m0 im0 -> analyze m0 im0 st = Ok st' ->
  gray m im -> iw im = iw im0 -> ih im = ih im0 ->
  exists l, findIncorrectPixels m st' im = Ok l /\ StronglySorted raster l /\
    forall x y, In (x, y) l <-> at_px im x y /\ (pixel m im x y 0 = 0 \/ pixel m im x y 0 = 255).
Proof.
  intros W0 B0 E (W & C & B) Hw Hh.
  destruct (analyze_value m0 im0 st W0 (bytes_smps m0 im0 W0 B0)) as [(mn & mx & st1 & X & E1 & K)|(_ & E1)]; [|congruence].
  rewrite E in E1. injection E1 as <-.
  pose proof (wf_w _ _ W). pose proof (wf_h _ _ W).
  exists (all_bad m im (iw im) (ih im)). split; [|split].
  - apply find_value; [exact W| |]; [rewrite Hw|rewrite Hh]; apply K.
  - apply all_sorted; lia.
  - intros x y. rewrite in_all. cbn [fst snd]. rewrite smp_pixel by assumption. unfold extreme, at_px.
    rewrite orb_true_iff, !Z.eqb_eq. tauto.
Qed.
Print Assumptions C100_finds.
Lemma raster_NoDup l : StronglySorted raster l -> NoDup l.
Proof.
  induction 1 as [|a l S IH F]; constructor; auto. intros Hin. rewrite Forall_forall in F.
  destruct (F a Hin) as [H|[_ H]]; lia.
Qed.
Lemma C100_gray : gray emem (img 2 5 3 1 5).
Proof. split; [solve_wf|]. split; [reflexivity|apply emem_bytes]. Qed.
Example C100_example : exists st', analyze emem (img 1 5 3 1 8) fresh = Ok st' /\
  gray emem (img 2 5 3 1 5) /\ iw (img 2 5 3 1 5) = iw (img 1 5 3 1 8) /\ ih (img 2 5 3 1 5) = ih (img 1 5 3 1 8).
Proof.
  destruct (proj1 (C77_analysis _ _ fresh (proj1 C77_example)) (proj1 (proj2 C77_example))) as (st & E).
  exists st. exact (conj E (conj C100_gray (conj eq_refl eq_refl))).
Qed.

(** ** C101 *)

(** findIncorrectPixels returns or throws for every image, after a successful analysis. *)
Definition C101_claim : Prop := forall m0 im0 st st' m im, wf m0 im0 -> bytes m0 im0 -> analyze m0 im0 st = Ok st' ->
  gray m im -> findIncorrectPixels m st' im <> UB.
(** A smaller image is read beyond its end. *)
Theorem C101_claim_refuted : ~ C101_claim.
Proof.
  intros C. set (m0 := fun b : Z => mkBlock (if b =? 1 then 4 else 2) (fun o => o + 7)).
  set (im0 := img 1 2 2 1 2). set (im := img 2 2 1 1 2).
  assert (W0 : wf m0 im0) by solve_wf.
  assert (B0 : bytes m0 im0).
  { intros x y c Hx Hy Hc. cbn in Hx, Hy, Hc. unfold pixel, get, px. cbn. lia. }
  assert (G : gray m0 im).
  { split; [solve_wf|]. split; [reflexivity|]. intros x y c Hx Hy Hc. cbn in Hx, Hy, Hc. unfold pixel, get, px. cbn. lia. }
  assert (E : match analyze m0 im0 fresh with
              | Ok st' => match findIncorrectPixels m0 st' im with UB => true | _ => false end
              | _ => false end = true) by (vm_compute; reflexivity).
  destruct (analyze m0 im0 fresh) as [st'|?| |] eqn:E1; try discriminate E.
  destruct (findIncorrectPixels m0 st' im) eqn:E2; try discriminate E. exact (C m0 im0 fresh st' m0 im W0 B0 E1 G E2).
Qed.
Print Assumptions C101_claim_refuted.
