(** Properties of the scalar image functions: C01 - C15.
    Each theorem is followed by a concrete case that meets its hypotheses and by
    [Print Assumptions]. *)
From Coq Require Import ZArith List Bool Lia.
From Verif Require Import Base Image Spec BaseProofs ImgFun ImgLemmas ImgProofs ConvProofs ReduceProofs SafeProofs.
Import ListNotations.
Open Scope Z_scope.

Ltac Zify.zify_post_hook ::= Z.div_mod_to_equations.

(** ** Concrete images used by the examples *)

(** [img b w h cc rs]: image at the start of block [b]. *)
Definition img (b w h cc rs : Z) : image := mkImage w h cc 1 rs (Some (b, 0)) 0.
(** Every block has 4096 elements; the value depends on block and offset. *)
Definition emem : mem := fun b => mkBlock 4096 (fun o => (o * 37 + b * 11) mod 256).

Ltac solve_wf := lazymatch goal with |- wf _ _ => constructor; cbn; unfold W32; try discriminate; try lia; auto end.
Ltac solve_roi := lazymatch goal with |- roi_in _ _ _ _ _ => constructor; cbn; lia end.
Ltac solve_area := lazymatch goal with |- area _ _ _ _ _ _ => split; [solve_wf|solve_roi] end.
Lemma emem_bytes im : bytes emem im.
Proof. intros x y c _ _ _. unfold pixel, get, emem. cbn [bget]. apply Z.mod_pos_bound. lia. Qed.
Ltac solve_disjoint := apply disjoint_blocks; cbn; discriminate.

(** ** C01 *)

(** The functions with two inputs and the value each documents. *)
Definition call2 : Type :=
  mem -> image -> Z -> Z -> image -> Z -> Z -> image -> Z -> Z -> Z -> Z -> res mem mem.
Definition two_input_functions : list (call2 * (Z -> Z -> Z)) :=
  [(AbsoluteDifference, fun a b => Z.abs (a - b));
   (BitwiseAnd, Z.land);
   (BitwiseOr, Z.lor);
   (BitwiseXor, Z.lxor);
   (Maximum, Z.max);
   (Minimum, Z.min)].

Lemma two_input_model F f : In (F, f) two_input_functions ->
  exists g, F = pixelwise2 opt3 g /\ forall a b, 0 <= a < 256 -> 0 <= b < 256 -> g a b = f a b.
Proof.
  unfold two_input_functions. cbn [In].
  intros [E|[E|[E|[E|[E|[E|[]]]]]]]; injection E as <- <-; eexists; (split; [reflexivity|]); auto.
  - intros a b Ha Hb. unfold absdiff_px, u8. destruct (Z.ltb_spec a b); rewrite Z.mod_small; lia.
  - intros a b Ha Hb. unfold max_px. destruct (Z.ltb_spec b a); lia.
  - intros a b Ha Hb. unfold min_px. destruct (Z.ltb_spec a b); lia.
Qed.

Lemma bytes_at m im x y w h i j c : bytes m im -> roi_in im x y w h -> inside w h (icc im) i j c ->
  0 <= pixel m im (x + i) (y + j) c < 256.
Proof. intros B [] (Hi & Hj & Hc). apply B; lia. Qed.

Theorem C01_two_input_pixelwise F f m in1 x1 y1 in2 x2 y2 out xo yo w h :
  In (F, f) two_input_functions ->
  area m in1 x1 y1 w h -> area m in2 x2 y2 w h -> area m out xo yo w h ->
  icc in1 = icc out -> icc in2 = icc out -> bytes m in1 -> bytes m in2 ->
  no_hazard out xo yo in1 x1 y1 w h -> no_hazard out xo yo in2 x2 y2 w h ->
  writes (F m in1 x1 y1 in2 x2 y2 out xo yo w h) m out xo yo w h
    (fun i j c => f (pixel m in1 (x1 + i) (y1 + j) c) (pixel m in2 (x2 + i) (y2 + j) c)).
Proof.
  intros HF [W1 R1] [W2 R2] [Wo Ro] C1 C2 B1 B2 N1 N2.
  destruct (two_input_model F f HF) as (g & -> & Hg).
  eapply writes_ext.
  - apply (pixelwise2_writes opt3 g); auto. left. intros im Hi. exists im. auto.
  - intros i j c Hi. apply Hg; apply (bytes_at m _ _ _ w h); auto; congruence.
Qed.
(** Output separate from both inputs; output being the first input itself. *)
Example C01_case_separate : writes (AbsoluteDifference emem (img 1 5 4 3 16) 1 1 (img 2 4 3 3 12) 0 1 (img 3 6 5 3 20) 2 0 3 2)
    emem (img 3 6 5 3 20) 2 0 3 2
    (fun i j c => Z.abs (pixel emem (img 1 5 4 3 16) (1 + i) (1 + j) c - pixel emem (img 2 4 3 3 12) (0 + i) (1 + j) c)).
Proof.
  refine (C01_two_input_pixelwise AbsoluteDifference _ _ _ _ _ _ _ _ _ _ _ _ _ (or_introl eq_refl) _ _ _ _ _ _ _ _ _);
    try solve_area; try reflexivity; try apply emem_bytes; apply hazard_of_disjoint; solve_disjoint.
Qed.
Example C01_case_in_place : writes (Maximum emem (img 1 5 4 1 8) 1 1 (img 2 4 3 1 4) 0 1 (img 1 5 4 1 8) 1 1 3 2)
    emem (img 1 5 4 1 8) 1 1 3 2
    (fun i j c => Z.max (pixel emem (img 1 5 4 1 8) (1 + i) (1 + j) c) (pixel emem (img 2 4 3 1 4) (0 + i) (1 + j) c)).
Proof.
  refine (C01_two_input_pixelwise Maximum _ _ _ _ _ _ _ _ _ _ _ _ _ _ _ _ _ _ _ _ _ _ _);
    try solve_area; try reflexivity; try apply emem_bytes.
  - do 4 right. left. reflexivity.
  - apply (no_hazard_same emem); [solve_wf|solve_roi].
  - apply hazard_of_disjoint; solve_disjoint.
Qed.
Print Assumptions C01_two_input_pixelwise.

(** In-place use is covered by [no_hazard]. *)
Theorem C01_in_place_allowed m im x y w h : area m im x y w h -> no_hazard im x y im x y w h.
Proof. intros [W R]. apply (no_hazard_same m); assumption. Qed.
Theorem C01_separate_allowed a xa ya b xb yb w h :
  disjoint a xa ya w h b xb yb w h -> no_hazard a xa ya b xb yb w h.
Proof. apply hazard_of_disjoint. Qed.
Print Assumptions C01_in_place_allowed.

(** Whole-image form writing into an existing image. *)
Theorem C01_whole_images F f m in1 in2 out :
  In (F, f) two_input_functions ->
  wf m in1 -> wf m in2 -> wf m out -> bytes m in1 -> bytes m in2 ->
  iw in1 = iw out -> iw in2 = iw out -> ih in1 = ih out -> ih in2 = ih out ->
  icc in1 = icc out -> icc in2 = icc out ->
  no_hazard out 0 0 in1 0 0 (iw out) (ih out) -> no_hazard out 0 0 in2 0 0 (iw out) (ih out) ->
  writes (whole2 F m in1 in2 out) m out 0 0 (iw out) (ih out)
    (fun i j c => f (pixel m in1 i j c) (pixel m in2 i j c)).
Proof.
  intros HF W1 W2 Wo B1 B2 Ew1 Ew2 Eh1 Eh2 C1 C2 N1 N2.
  unfold whole2, valid_pair. rewrite !(wf_not_empty m), !(color_ok m) by assumption.
  rewrite Ew1, Ew2, Eh1, Eh2, !Z.eqb_refl. cbn [orb negb andb].
  pose proof (wf_w _ _ Wo). pose proof (wf_h _ _ Wo).
  refine (C01_two_input_pixelwise F f m in1 0 0 in2 0 0 out 0 0 _ _ HF _ _ _ C1 C2 B1 B2 N1 N2);
    (split; [assumption|constructor; lia]).
Qed.
Example C01_whole_case : writes (whole2 BitwiseXor emem (img 1 5 4 1 8) (img 2 5 4 1 5) (img 3 5 4 1 12))
  emem (img 3 5 4 1 12) 0 0 5 4 (fun i j c => Z.lxor (pixel emem (img 1 5 4 1 8) i j c) (pixel emem (img 2 5 4 1 5) i j c)).
Proof.
  refine (C01_whole_images BitwiseXor Z.lxor _ _ _ _ _ _ _ _ _ _ _ _ _ _ _ _ _ _); try solve_wf; try reflexivity;
    try apply emem_bytes; try (apply hazard_of_disjoint; solve_disjoint).
  do 3 right. left. reflexivity.
Qed.
Print Assumptions C01_whole_images.

(** Value-returning forms: the result is a new image, in memory [nb] used by nothing else,
    of the size of the region and the colour count of the inputs; the inputs (and all other
    memory) are unchanged. *)
Definition returns_image (r : res mem (mem * image)) (m : mem) (nb : Z) (w h cc : Z)
    (val : Z -> Z -> Z -> Z) : Prop :=
  exists m' out, r = Ok (m', out) /\ wf m' out /\ iw out = w /\ ih out = h /\ icc out = cc /\
    (forall i j c, inside w h cc i j c -> pixel m' out i j c = val i j c) /\
    (forall p, fst p <> nb -> get m' p = get m p) /\ (forall b, b <> nb -> len m' b = len m b).

Lemma generate_area m nb junk ty w h cc : 0 < w -> 0 < h -> (cc = 1 \/ cc = 3 \/ cc = 4) -> w * cc * h < W32 ->
  let '(m', out) := generate m nb junk ty w h cc in
  area m' out 0 0 w h /\ iw out = w /\ ih out = h /\ icc out = cc /\ fst (ibase out) = nb /\
  (forall p, fst p <> nb -> get m' p = get m p) /\ (forall b, b <> nb -> len m' b = len m b).
Proof.
  intros Hw Hh Hc Hs. unfold generate. assert (0 < w * cc < W32) by nia.
  rewrite (u32_small (w * cc)) by lia.
  split; [|repeat split; auto].
  - split; [|constructor; cbn; lia].
    constructor; cbn; try lia; try discriminate; try nia; auto.
    unfold len. rewrite Z.eqb_refl. cbn. lia.
  - intros p Hp. unfold get. destruct (Z.eqb_spec (fst p) nb); [contradiction|reflexivity].
  - intros b Hb. unfold len. destruct (Z.eqb_spec b nb); [contradiction|reflexivity].
Qed.

Lemma fresh_wf m m' nb im : wf m im -> fst (ibase im) <> nb -> (forall b, b <> nb -> len m' b = len m b) -> wf m' im.
Proof. intros [] Hn Hl. constructor; auto. rewrite Hl; assumption. Qed.
Lemma fresh_pixel m m' nb im x y c : fst (ibase im) <> nb -> (forall p, fst p <> nb -> get m' p = get m p) ->
  pixel m' im x y c = pixel m im x y c.
Proof. intros Hn Hg. apply Hg. exact Hn. Qed.
Lemma fresh_bytes m m' nb im : bytes m im -> fst (ibase im) <> nb -> (forall p, fst p <> nb -> get m' p = get m p) ->
  bytes m' im.
Proof. intros B Hn Hg x y c Hx Hy Hc. rewrite (fresh_pixel m m' nb) by assumption. auto. Qed.

Lemma returns_of_writes m nb m1 out w h cc (r : res mem mem) val val1 :
  area m1 out 0 0 w h -> iw out = w -> ih out = h -> icc out = cc -> fst (ibase out) = nb ->
  (forall p, fst p <> nb -> get m1 p = get m p) -> (forall b, b <> nb -> len m1 b = len m b) ->
  writes r m1 out 0 0 w h val1 ->
  (forall i j c, inside w h cc i j c -> val1 i j c = val i j c) ->
  returns_image (bind r (fun m2 => Ok (m2, out))) m nb w h cc val.
Proof.
  intros [Wo Ro] Ew Eh Ec Hb Hg Hl (m2 & He & Hv & Hlen & Hf) Hval.
  rewrite He. cbn [bind]. exists m2, out. split; [reflexivity|].
  split; [apply (wf_same_len m1); assumption|]. do 3 (split; [assumption|]).
  split; [|split].
  - intros i j c Hi. rewrite <- Hval by assumption. apply (Hv i j c). rewrite Ec. assumption.
  - intros p Hp. rewrite Hf; [apply Hg; assumption|]. intros i j c _ E. apply Hp. rewrite E. exact Hb.
  - intros b Hbn. rewrite Hlen. apply Hl. assumption.
Qed.

Theorem C01_value_form F f nb junk m in1 x1 y1 in2 x2 y2 w h :
  In (F, f) two_input_functions ->
  area m in1 x1 y1 w h -> area m in2 x2 y2 w h -> icc in1 = icc in2 -> bytes m in1 -> bytes m in2 ->
  fst (ibase in1) <> nb -> fst (ibase in2) <> nb ->
  returns_image (value2_roi F nb junk m in1 x1 y1 in2 x2 y2 w h) m nb w h (icc in1)
    (fun i j c => f (pixel m in1 (x1 + i) (y1 + j) c) (pixel m in2 (x2 + i) (y2 + j) c)).
Proof.
  intros HF [W1 R1] [W2 R2] C B1 B2 N1 N2.
  unfold value2_roi, valid_roi2. rewrite !(valid_roi_ok m) by assumption. cbn [andb].
  pose proof (gray_area m in1 x1 y1 w h W1 R1) as Ha.
  pose proof (generate_area m nb junk (ity in1) w h (icc in1) (roi_w _ _ _ _ _ R1) (roi_h _ _ _ _ _ R1) (wf_cc _ _ W1) Ha) as G.
  destruct (generate m nb junk (ity in1) w h (icc in1)) as [m1 out].
  destruct G as (Ao & Ew & Eh & Ec & Eb & Hg & Hl).
  rewrite Ew, Eh.
  eapply returns_of_writes; eauto.
  - apply (C01_two_input_pixelwise F f m1 in1 x1 y1 in2 x2 y2 out 0 0 w h HF).
    + split; [apply (fresh_wf m m1 nb); auto|assumption].
    + split; [apply (fresh_wf m m1 nb); auto|assumption].
    + exact Ao.
    + symmetry; exact Ec.
    + congruence.
    + apply (fresh_bytes m m1 nb); auto.
    + apply (fresh_bytes m m1 nb); auto.
    + apply hazard_of_disjoint, disjoint_blocks. congruence.
    + apply hazard_of_disjoint, disjoint_blocks. congruence.
  - intros i j c Hi. cbv beta. rewrite !(fresh_pixel m m1 nb) by assumption. reflexivity.
Qed.
Example C01_value_case : returns_image (value2_roi Minimum 7 (fun o => o) emem (img 1 5 4 3 16) 1 1 (img 2 4 3 3 12) 0 1 3 2)
  emem 7 3 2 3 (fun i j c => Z.min (pixel emem (img 1 5 4 3 16) (1 + i) (1 + j) c) (pixel emem (img 2 4 3 3 12) (0 + i) (1 + j) c)).
Proof.
  refine (C01_value_form Minimum Z.min 7 _ _ _ _ _ _ _ _ _ _ _ _ _ _ _ _ _ _); try solve_area; try reflexivity;
    try apply emem_bytes; try (cbn; discriminate).
  do 5 right. left. reflexivity.
Qed.
Print Assumptions C01_value_form.

(** ** C02: the claim, its refutation, and the part that holds *)

Definition C02_claim : Prop :=
  forall m in1 x1 y1 in2 x2 y2 out xo yo w h,
  area m in1 x1 y1 w h -> area m in2 x2 y2 w h -> area m out xo yo w h ->
  icc in1 = icc out -> icc in2 = icc out -> bytes m in1 -> bytes m in2 ->
  no_hazard out xo yo in1 x1 y1 w h -> no_hazard out xo yo in2 x2 y2 w h ->
  writes (Subtract m in1 x1 y1 in2 x2 y2 out xo yo w h) m out xo yo w h
    (fun i j c => Z.max (pixel m in1 (x1 + i) (y1 + j) c - pixel m in2 (x2 + i) (y2 + j) c) 0).

(** 2x2 images; in1 and out without padding, in2 with rows of 4 bytes.  in1 holds 9
    everywhere, in2 holds 1 in its pixels and 5 in its padding. *)
Definition c02_mem : mem := fun b =>
  mkBlock 16 (fun o => if b =? 1 then 9 else if b =? 2 then (if o mod 4 <? 2 then 1 else 5) else 0).
Theorem C02_subtract_all_layouts_refuted : ~ C02_claim.
Proof.
  intros H.
  specialize (H c02_mem (img 1 2 2 1 2) 0 0 (img 2 2 2 1 4) 0 0 (img 3 2 2 1 2) 0 0 2 2).
  destruct H as (m' & He & Hv & _); try solve_area; try reflexivity.
  - intros x y c Hx Hy Hc. vm_compute. split; congruence.
  - intros x y c Hx Hy Hc. unfold pixel, get, c02_mem. cbn [bget fst px ibase idata img Z.eqb Pos.eqb].
    destruct (_ <? _); lia.
  - apply hazard_of_disjoint; solve_disjoint.
  - apply hazard_of_disjoint; solve_disjoint.
  - specialize (Hv 0 1 0). cbv beta in Hv. assert (Hin : inside 2 2 1 0 1 0) by (unfold inside; lia).
    specialize (Hv Hin).
    vm_compute in He. injection He as <-. vm_compute in Hv. discriminate Hv.
Qed.
Print Assumptions C02_subtract_all_layouts_refuted.

(** Subtract is right whenever the second image has the row layout of the first, or the
    rows of in1 or out do not fill the ROI exactly (so that rows are not merged). *)
Theorem C02_subtract_partial m in1 x1 y1 in2 x2 y2 out xo yo w h :
  area m in1 x1 y1 w h -> area m in2 x2 y2 w h -> area m out xo yo w h ->
  icc in1 = icc out -> icc in2 = icc out -> bytes m in1 -> bytes m in2 ->
  no_hazard out xo yo in1 x1 y1 w h -> no_hazard out xo yo in2 x2 y2 w h ->
  irs in2 = irs in1 \/ irs in1 <> w * icc out \/ irs out <> w * icc out \/ h = 1 ->
  writes (Subtract m in1 x1 y1 in2 x2 y2 out xo yo w h) m out xo yo w h
    (fun i j c => Z.max (pixel m in1 (x1 + i) (y1 + j) c - pixel m in2 (x2 + i) (y2 + j) c) 0).
Proof.
  intros [W1 R1] [W2 R2] [Wo Ro] C1 C2 B1 B2 N1 N2 L.
  assert (Hw0 : 0 < w) by apply Ro. assert (Hh0 : 0 < h) by apply Ro.
  pose proof (wf_cc_pos _ _ Wo).
  eapply writes_ext.
  - apply (pixelwise2_writes opt3_subtract sub_px); auto.
    destruct L as [L|L].
    + left. intros im [<-|[<-|[<-|[]]]]; [exists in1|exists in1|exists out]; unfold opt3_subtract; simpl; auto.
    + right. destruct (OptimiseRoi_cases (w * icc out) h (opt3_subtract in1 in2 out)) as [E|(E & _ & Hr)]; try nia; auto.
      destruct L as [L|[L|L]].
      * exfalso. apply L, Hr. unfold opt3_subtract; simpl; auto.
      * exfalso. apply L, Hr. unfold opt3_subtract; simpl; auto.
      * rewrite E, L. f_equal. lia.
  - intros i j c Hi. cbv beta.
    pose proof (bytes_at m in1 x1 y1 w h i j c B1 R1) as P1. rewrite C1 in P1. specialize (P1 Hi).
    pose proof (bytes_at m in2 x2 y2 w h i j c B2 R2) as P2. rewrite C2 in P2. specialize (P2 Hi).
    unfold sub_px, u8. destruct (Z.ltb_spec (pixel m in1 (x1 + i) (y1 + j) c) (pixel m in2 (x2 + i) (y2 + j) c)).
    + rewrite Z.mod_0_l by lia. lia.
    + rewrite u32_small by (unfold W32; lia). rewrite Z.mod_small by lia. lia.
Qed.
Example C02_case : writes (Subtract emem (img 1 5 4 3 15) 1 1 (img 2 5 4 3 16) 0 1 (img 3 6 5 3 20) 2 0 3 2)
    emem (img 3 6 5 3 20) 2 0 3 2
    (fun i j c => Z.max (pixel emem (img 1 5 4 3 15) (1 + i) (1 + j) c - pixel emem (img 2 5 4 3 16) (0 + i) (1 + j) c) 0).
Proof.
  refine (C02_subtract_partial _ _ _ _ _ _ _ _ _ _ _ _ _ _ _ _ _ _ _ _ _ _); try solve_area; try reflexivity;
    try apply emem_bytes; try (apply hazard_of_disjoint; solve_disjoint).
  right; left. cbn. lia.
Qed.
Print Assumptions C02_subtract_partial.

(** ** C03 *)

Theorem C03_invert m inp xi yi out xo yo w h :
  area m inp xi yi w h -> area m out xo yo w h -> icc inp = icc out -> bytes m inp ->
  no_hazard out xo yo inp xi yi w h ->
  writes (Invert m inp xi yi out xo yo w h) m out xo yo w h
    (fun i j c => 255 - pixel m inp (xi + i) (yi + j) c).
Proof.
  intros [W1 R1] [Wo Ro] C B N. eapply writes_ext.
  - apply (pixelwise1_writes common_cc2 (fun a => Ok (invert_px a))
             (fun i j c => invert_px (pixel m inp (xi + i) (yi + j) c))); auto.
    unfold common_cc2. apply Z.eqb_eq. exact C.
  - intros i j c Hi. cbv beta. pose proof (bytes_at m inp xi yi w h i j c B R1) as P1. rewrite C in P1. specialize (P1 Hi).
    unfold invert_px, u8. unfold Z.lnot.
    set (v := pixel m inp (xi + i) (yi + j) c) in *. clearbody v.
    symmetry. apply Z.mod_unique with (-1); [|unfold Z.pred]; lia.
Qed.
Theorem C03_threshold t m inp xi yi out xo yo w h :
  area m inp xi yi w h -> area m out xo yo w h -> icc inp = 1 -> icc out = 1 ->
  no_hazard out xo yo inp xi yi w h ->
  writes (Threshold t m inp xi yi out xo yo w h) m out xo yo w h
    (fun i j c => if pixel m inp (xi + i) (yi + j) c <? t then 0 else 255).
Proof.
  intros [W1 R1] [Wo Ro] C Co N.
  apply (pixelwise1_writes (fun a b => is_gray a && is_gray b) (fun a => Ok (thr_px t a))); auto; try congruence.
  rewrite !gray_true by assumption. reflexivity.
Qed.
Theorem C03_threshold_band lo hi m inp xi yi out xo yo w h :
  area m inp xi yi w h -> area m out xo yo w h -> icc inp = 1 -> icc out = 1 ->
  no_hazard out xo yo inp xi yi w h -> lo <= hi ->
  writes (Threshold2 lo hi m inp xi yi out xo yo w h) m out xo yo w h
    (fun i j c => if (lo <=? pixel m inp (xi + i) (yi + j) c) && (pixel m inp (xi + i) (yi + j) c <=? hi) then 255 else 0).
Proof.
  intros [W1 R1] [Wo Ro] C Co N L. eapply writes_ext.
  - apply (pixelwise1_writes (fun a b => is_gray a && is_gray b && (lo <=? hi)) (fun a => Ok (thr2_px lo hi a))
             (fun i j c => thr2_px lo hi (pixel m inp (xi + i) (yi + j) c))); auto; try congruence.
    rewrite !gray_true by assumption. apply Z.leb_le in L. rewrite L. reflexivity.
  - intros i j c _. cbv beta. unfold thr2_px. set (v := pixel m inp (xi + i) (yi + j) c).
    destruct (Z.ltb_spec v lo), (Z.ltb_spec hi v), (Z.leb_spec lo v), (Z.leb_spec v hi); auto; lia.
Qed.
Theorem C03_threshold_band_rejects lo hi m inp xi yi out xo yo w h :
  hi < lo -> rejected (Threshold2 lo hi m inp xi yi out xo yo w h) m.
Proof.
  intros L. unfold rejected, Threshold2, pixelwise1. destruct (valid_roi2 _ _ _ _ _ _ _ _); auto.
  destruct (Z.leb_spec lo hi); [lia|]. rewrite andb_false_r. reflexivity.
Qed.
Theorem C03_lookup_table table m inp xi yi out xo yo w h :
  area m inp xi yi w h -> area m out xo yo w h -> icc inp = icc out -> bytes m inp ->
  no_hazard out xo yo inp xi yi w h -> length table = 256%nat ->
  writes (LookupTable table m inp xi yi out xo yo w h) m out xo yo w h
    (fun i j c => nth (Z.to_nat (pixel m inp (xi + i) (yi + j) c)) table 0).
Proof.
  intros [W1 R1] [Wo Ro] C B N L. unfold LookupTable. apply pixelwise1_writes; auto.
  - rewrite L. unfold common_cc2. rewrite C, !Z.eqb_refl. reflexivity.
  - intros i j c Hi. pose proof (bytes_at m inp xi yi w h i j c B R1) as P1. rewrite C in P1. specialize (P1 Hi).
    unfold vnth. rewrite L. destruct (Z.leb_spec 0 (pixel m inp (xi + i) (yi + j) c)); [|lia].
    destruct (Z.ltb_spec (pixel m inp (xi + i) (yi + j) c) (Z.of_nat 256)); [|lia]. reflexivity.
Qed.
Theorem C03_lookup_table_rejects table m inp xi yi out xo yo w h :
  length table <> 256%nat -> rejected (LookupTable table m inp xi yi out xo yo w h) m.
Proof.
  intros L. unfold rejected, LookupTable, pixelwise1. destruct (valid_roi2 _ _ _ _ _ _ _ _); auto.
  destruct (Z.eqb_spec (Z.of_nat (length table)) 256); [lia|]. reflexivity.
Qed.
Theorem C03_copy m inp xi yi out xo yo w h :
  area m inp xi yi w h -> area m out xo yo w h -> icc inp = icc out ->
  disjoint out xo yo w h inp xi yi w h ->
  writes (Copy m inp xi yi out xo yo w h) m out xo yo w h
    (fun i j c => pixel m inp (xi + i) (yi + j) c).
Proof. intros [W1 R1] [Wo Ro] C D. apply Copy_writes; auto. Qed.

Example C03_case : area emem (img 1 5 4 3 16) 1 1 3 2 /\ area emem (img 2 4 3 3 12) 0 1 3 2 /\
  bytes emem (img 1 5 4 3 16) /\ disjoint (img 2 4 3 3 12) 0 1 3 2 (img 1 5 4 3 16) 1 1 3 2 /\
  no_hazard (img 1 5 4 3 16) 1 1 (img 1 5 4 3 16) 1 1 3 2.
Proof.
  split; [solve_area|]. split; [solve_area|]. split; [apply emem_bytes|]. split; [solve_disjoint|].
  apply (no_hazard_same emem); [solve_wf|solve_roi].
Qed.
Example C03_case_gray : area emem (img 1 5 4 1 16) 1 1 3 2 /\ area emem (img 2 4 3 1 12) 0 1 3 2 /\
  no_hazard (img 2 4 3 1 12) 0 1 (img 1 5 4 1 16) 1 1 3 2.
Proof. split; [solve_area|]. split; [solve_area|]. apply hazard_of_disjoint; solve_disjoint. Qed.
Print Assumptions C03_invert.
Print Assumptions C03_threshold.
Print Assumptions C03_threshold_band.
Print Assumptions C03_threshold_band_rejects.
Print Assumptions C03_lookup_table.
Print Assumptions C03_lookup_table_rejects.
Print Assumptions C03_copy.

(** ** C04 *)

Definition args_u32 (im : image) (x y w h : Z) : Prop :=
  u32_image im /\ is_u32 x /\ is_u32 y /\ is_u32 w /\ is_u32 h.
Lemma args_bad im x y w h : args_u32 im x y w h -> ~ valid_arg im x y w h -> valid_roi im x y w h = false.
Proof. intros (U & Hx & Hy & Hw & Hh). apply bad_roi; auto. Qed.
Lemma valid_arg_dec im x y w h : args_u32 im x y w h -> valid_arg im x y w h \/ ~ valid_arg im x y w h.
Proof.
  intros (U & Hx & Hy & Hw & Hh). destruct (valid_roi im x y w h) eqn:E.
  - left. apply good_roi; auto.
  - right. intros V. apply good_roi in V; auto. congruence.
Qed.
Lemma bad2 a xa ya b xb yb w h : args_u32 a xa ya w h -> args_u32 b xb yb w h ->
  ~ (valid_arg a xa ya w h /\ valid_arg b xb yb w h) -> valid_roi2 a xa ya b xb yb w h = false.
Proof.
  intros Ua Ub H. unfold valid_roi2.
  destruct (valid_arg_dec a xa ya w h Ua) as [Va|Na].
  - rewrite (args_bad b) by tauto. apply andb_false_r.
  - rewrite (args_bad a) by tauto. reflexivity.
Qed.
Lemma bad3 a xa ya b xb yb c xc yc w h :
  args_u32 a xa ya w h -> args_u32 b xb yb w h -> args_u32 c xc yc w h ->
  ~ (valid_arg a xa ya w h /\ valid_arg b xb yb w h /\ valid_arg c xc yc w h) ->
  valid_roi3 a xa ya b xb yb c xc yc w h = false.
Proof.
  intros Ua Ub Uc H. unfold valid_roi3.
  destruct (valid_arg_dec a xa ya w h Ua) as [Va|Na].
  - rewrite (bad2 b xb yb c xc yc) by tauto. apply andb_false_r.
  - rewrite (args_bad a) by tauto. reflexivity.
Qed.

(** Functions of one image. *)
Theorem C04_one_image m im x y w h : args_u32 im x y w h -> ~ valid_arg im x y w h ->
  (forall v, rejected (Fill m im x y w h v) m) /\
  rejected (Histogram m im x y w h) m /\
  rejected (IsBinary m im x y w h) m /\
  (forall d, rejected (ProjectionProfile m im x y w h d) m) /\
  rejected (Sum m im x y w h) m /\
  (forall r, Accumulate m im x y w h r = Throw r).
Proof.
  intros U V. pose proof (args_bad _ _ _ _ _ U V) as E.
  unfold rejected, Fill, Histogram, IsBinary, ProjectionProfile, Sum, Accumulate. rewrite E.
  repeat split; reflexivity.
Qed.
(** Functions of one input and one output with a common region size, and of two inputs. *)
Theorem C04_two_images m a xa ya b xb yb w h : args_u32 a xa ya w h -> args_u32 b xb yb w h ->
  ~ (valid_arg a xa ya w h /\ valid_arg b xb yb w h) ->
  rejected (Invert m a xa ya b xb yb w h) m /\
  (forall table, rejected (LookupTable table m a xa ya b xb yb w h) m) /\
  (forall t, rejected (Threshold t m a xa ya b xb yb w h) m) /\
  (forall lo hi, rejected (Threshold2 lo hi m a xa ya b xb yb w h) m) /\
  rejected (Copy m a xa ya b xb yb w h) m /\
  rejected (ConvertTo16Bit m a xa ya b xb yb w h) m /\
  rejected (ConvertTo8Bit m a xa ya b xb yb w h) m /\
  rejected (ConvertToGrayScale m a xa ya b xb yb w h) m /\
  rejected (ConvertToRgb m a xa ya b xb yb w h) m /\
  (forall ch, rejected (ExtractChannel m a xa ya b xb yb w h ch) m) /\
  (forall hor ver, rejected (Flip m a xa ya b xb yb w h hor ver) m) /\
  (forall id, rejected (ReplaceChannel m a xa ya b xb yb w h id) m) /\
  rejected (RgbToBgr m a xa ya b xb yb w h) m /\
  rejected (RgbToRgba m a xa ya b xb yb w h) m /\
  rejected (RgbaToRgb m a xa ya b xb yb w h) m /\
  rejected (HistogramMask m a xa ya b xb yb w h) m /\
  rejected (IsEqual m a xa ya b xb yb w h) m.
Proof.
  intros Ua Ub V. pose proof (bad2 _ _ _ _ _ _ _ _ Ua Ub V) as E.
  unfold rejected, Invert, LookupTable, Threshold, Threshold2, pixelwise1, Copy, ConvertTo16Bit, ConvertTo8Bit,
    ConvertToGrayScale, ConvertToRgb, ExtractChannel, Flip, ReplaceChannel, RgbToBgr, RgbToRgba, RgbaToRgb,
    HistogramMask, IsEqual.
  rewrite E. unfold valid_roi2 in E.
  repeat split; try reflexivity;
    (destruct (valid_roi a xa ya w h); [|reflexivity]; cbn [andb] in E; rewrite E; reflexivity).
Qed.
Theorem C04_three_images F m a xa ya b xb yb c xc yc w h :
  In F (Subtract :: map fst two_input_functions) ->
  args_u32 a xa ya w h -> args_u32 b xb yb w h -> args_u32 c xc yc w h ->
  ~ (valid_arg a xa ya w h /\ valid_arg b xb yb w h /\ valid_arg c xc yc w h) ->
  rejected (F m a xa ya b xb yb c xc yc w h) m.
Proof.
  intros HF Ua Ub Uc V. pose proof (bad3 _ _ _ _ _ _ _ _ _ _ _ Ua Ub Uc V) as E.
  assert (exists o g, F = pixelwise2 o g) as (o & g & ->).
  { cbn [map two_input_functions fst In] in HF.
    destruct HF as [<-|[<-|[<-|[<-|[<-|[<-|[<-|[]]]]]]]]; eexists; eexists; reflexivity. }
  unfold rejected, pixelwise2. rewrite E. reflexivity.
Qed.
Theorem C04_four_images m a xa ya b xb yb c xc yc d xd yd w h :
  args_u32 a xa ya w h -> args_u32 b xb yb w h -> args_u32 c xc yc w h -> args_u32 d xd yd w h ->
  ~ (valid_arg a xa ya w h /\ valid_arg b xb yb w h /\ valid_arg c xc yc w h /\ valid_arg d xd yd w h) ->
  rejected (Merge m a xa ya b xb yb c xc yc d xd yd w h) m /\
  rejected (Split m a xa ya b xb yb c xc yc d xd yd w h) m.
Proof.
  intros Ua Ub Uc Ud V. unfold rejected, Merge, Split. split.
  - destruct (valid_arg_dec d xd yd w h Ud) as [Vd|Nd].
    + rewrite (bad3 a xa ya b xb yb c xc yc) by tauto. reflexivity.
    + destruct (valid_roi3 _ _ _ _ _ _ _ _ _ _ _); [|reflexivity]. rewrite (args_bad d) by tauto. reflexivity.
  - destruct (valid_arg_dec a xa ya w h Ua) as [Va|Na].
    + rewrite (bad3 b xb yb c xc yc d xd yd) by tauto. destruct (valid_roi a xa ya w h); reflexivity.
    + rewrite (args_bad a) by tauto. reflexivity.
Qed.
(** Functions whose regions differ in size. *)
Theorem C04_resize_transpose m a xa ya wa ha b xb yb wb hb :
  args_u32 a xa ya wa ha -> args_u32 b xb yb wb hb ->
  ~ (valid_arg a xa ya wa ha /\ valid_arg b xb yb wb hb) ->
  rejected (Resize m a xa ya wa ha b xb yb wb hb) m /\
  (wb = ha -> hb = wa -> rejected (Transpose m a xa ya b xb yb wa ha) m).
Proof.
  intros Ua Ub V. unfold rejected, Resize, Transpose.
  destruct (valid_arg_dec a xa ya wa ha Ua) as [Va|Na].
  - destruct Ua as (Ua & ?). split.
    + rewrite (args_bad b xb yb wb hb) by tauto. destruct (valid_roi a xa ya wa ha); reflexivity.
    + intros -> ->. rewrite (args_bad b xb yb ha wa) by tauto. destruct (valid_roi a xa ya wa ha); reflexivity.
  - rewrite (args_bad a) by tauto. split; [reflexivity|]. intros _ _. reflexivity.
Qed.
(** The sums x+w and y+h may wrap around 2^32: such a region is refused as well. *)
Example C04_case : args_u32 (img 1 5 4 3 16) 3 0 4294967295 2 /\ ~ valid_arg (img 1 5 4 3 16) 3 0 4294967295 2.
Proof.
  split; [unfold args_u32, u32_image, is_u32, W32; cbn; lia|]. intros (_ & _ & R). destruct R. cbn in *. lia.
Qed.
Print Assumptions C04_one_image.
Print Assumptions C04_two_images.
Print Assumptions C04_three_images.
Print Assumptions C04_four_images.
Print Assumptions C04_resize_transpose.

(** ** C05: no out-of-bounds access and termination, whatever memory the images share *)

(** The call returns normally and no block changed its size; out-of-bounds accesses and
    non-termination are the outcomes [UB] and [Timeout] of the model. *)
Definition returns_safely (r : res mem mem) (m : mem) : Prop :=
  exists m', r = Ok m' /\ forall b, len m' b = len m b.

Theorem C05_two_inputs F m in1 x1 y1 in2 x2 y2 out xo yo w h :
  In F (Subtract :: map fst two_input_functions) ->
  area m in1 x1 y1 w h -> area m in2 x2 y2 w h -> area m out xo yo w h ->
  icc in1 = icc out -> icc in2 = icc out ->
  returns_safely (F m in1 x1 y1 in2 x2 y2 out xo yo w h) m.
Proof.
  intros HF [W1 R1] [W2 R2] [Wo Ro] C1 C2.
  cbn [map two_input_functions fst In] in HF.
  destruct HF as [<-|[<-|[<-|[<-|[<-|[<-|[<-|[]]]]]]]]; try (apply pixelwise2_safe; assumption).
  apply Subtract_safe; assumption.
Qed.
Theorem C05_same_colour_count m inp xi yi out xo yo w h :
  area m inp xi yi w h -> area m out xo yo w h -> icc inp = icc out ->
  returns_safely (Invert m inp xi yi out xo yo w h) m /\
  (forall v, returns_safely (Fill m out xo yo w h v) m) /\
  returns_safely (ConvertTo16Bit m inp xi yi out xo yo w h) m /\
  returns_safely (ConvertTo8Bit m inp xi yi out xo yo w h) m /\
  (icc out = 3 -> returns_safely (RgbToBgr m inp xi yi out xo yo w h) m) /\
  (forall table, length table = 256%nat -> bytes m inp -> (forall v, In v table -> 0 <= v < 256) ->
     returns_safely (LookupTable table m inp xi yi out xo yo w h) m) /\
  (disjoint out xo yo w h inp xi yi w h -> returns_safely (Copy m inp xi yi out xo yo w h) m).
Proof.
  intros [W1 R1] [Wo Ro] C. split; [|split; [|split; [|split; [|split; [|split]]]]].
  - apply (pixelwise1_safe common_cc2 invert_px); auto. apply Z.eqb_eq. exact C.
  - intros v. destruct (Fill_writes m out xo yo w h v Wo Ro) as (m' & He & _ & Hl & _). exists m'. auto.
  - apply Convert_safe; assumption.
  - apply Convert_safe; assumption.
  - intros C3. apply RgbToBgr_safe; congruence || assumption.
  - intros table Ht Hb Hv. apply LookupTable_safe; assumption.
  - intros D. destruct (Copy_writes m inp xi yi out xo yo w h W1 Wo C R1 Ro D) as (m' & He & _ & Hl & _). exists m'. auto.
Qed.
Theorem C05_gray m inp xi yi out xo yo w h :
  area m inp xi yi w h -> area m out xo yo w h -> icc inp = 1 -> icc out = 1 ->
  (forall t, returns_safely (Threshold t m inp xi yi out xo yo w h) m) /\
  (forall lo hi, lo <= hi -> returns_safely (Threshold2 lo hi m inp xi yi out xo yo w h) m) /\
  (forall ver, returns_safely (Flip m inp xi yi out xo yo w h true ver) m) /\
  (forall ver, disjoint out xo yo w h inp xi yi w h ->
     returns_safely (Flip m inp xi yi out xo yo w h false ver) m).
Proof.
  intros [W1 R1] [Wo Ro] C Co. split; [|split; [|split]].
  - intros t. apply (pixelwise1_safe _ (thr_px t)); auto; try congruence. rewrite !gray_true by assumption. reflexivity.
  - intros lo hi L. apply (pixelwise1_safe _ (thr2_px lo hi)); auto; try congruence.
    rewrite !gray_true by assumption. apply Z.leb_le in L. rewrite L. reflexivity.
  - intros ver. apply Flip_safe; assumption.
  - intros ver D. destruct (Flip_writes m inp xi yi out xo yo w h false ver W1 Wo C Co R1 Ro D) as (m' & He & _ & Hl & _).
    exists m'. auto.
Qed.
Theorem C05_transpose m inp xi yi out xo yo w h :
  area m inp xi yi w h -> area m out xo yo h w -> icc inp = 1 -> icc out = 1 ->
  returns_safely (Transpose m inp xi yi out xo yo w h) m.
Proof. intros [W1 R1] [Wo Ro] C Co. apply Transpose_safe; assumption. Qed.
Theorem C05_colour_conversion m inp xi yi out xo yo w h :
  area m inp xi yi w h -> area m out xo yo w h ->
  (icc inp <> 1 -> icc out = 1 -> returns_safely (ConvertToGrayScale m inp xi yi out xo yo w h) m) /\
  (icc inp <> 3 -> icc out = 3 -> returns_safely (ConvertToRgb m inp xi yi out xo yo w h) m) /\
  (icc out = 1 -> forall ch, 0 <= ch < icc inp -> returns_safely (ExtractChannel m inp xi yi out xo yo w h ch) m) /\
  (icc inp = 1 -> icc out = 3 -> forall id, 0 <= id < 3 -> returns_safely (ReplaceChannel m inp xi yi out xo yo w h id) m) /\
  (icc inp = 3 -> icc out = 4 -> returns_safely (RgbToRgba m inp xi yi out xo yo w h) m) /\
  (icc inp = 4 -> icc out = 3 -> returns_safely (RgbaToRgb m inp xi yi out xo yo w h) m).
Proof.
  intros [W1 R1] [Wo Ro]. pose proof (wf_cc _ _ W1).
  split; [intros; apply ConvertToGrayScale_safe; auto; lia|].
  split; [intros; apply ConvertToRgb_safe; auto; lia|].
  split; [intros; apply ExtractChannel_safe; auto|].
  split; [intros; apply ReplaceChannel_safe; auto|].
  split; [intros; apply RgbToRgba_safe; auto|intros; apply RgbaToRgb_safe; auto].
Qed.
Theorem C05_split_merge m rgb x0 y0 a xa ya b xb yb c xc yc w h :
  area m rgb x0 y0 w h -> area m a xa ya w h -> area m b xb yb w h -> area m c xc yc w h ->
  icc rgb = 3 -> icc a = 1 -> icc b = 1 -> icc c = 1 ->
  returns_safely (Split m rgb x0 y0 a xa ya b xb yb c xc yc w h) m /\
  returns_safely (Merge m a xa ya b xb yb c xc yc rgb x0 y0 w h) m.
Proof.
  intros [] [] [] [] ? ? ? ?. split; [apply Split_safe|apply Merge_safe]; assumption.
Qed.
(** Functions that only read: the result is a value, never [UB] or [Timeout]. *)
Theorem C05_readers m im x y w h :
  area m im x y w h ->
  (icc im = 1 -> exists s, Sum m im x y w h = Ok s) /\
  (icc im = 1 -> bytes m im -> exists hist, Histogram m im x y w h = Ok hist) /\
  (icc im = 1 -> bytes m im -> exists b, IsBinary m im x y w h = Ok b) /\
  (forall d, exists p, ProjectionProfile m im x y w h d = Ok p) /\
  (forall r, exists r', Accumulate m im x y w h r = Ok r' \/ Accumulate m im x y w h r = Throw r').
Proof.
  intros [W R]. split; [|split; [|split; [|split]]].
  - intros C. eexists. apply Sum_value; assumption.
  - intros C B. destruct (Histogram_value m im x y w h W C R (bytes_roi _ _ _ _ _ _ B R)) as (hist & He & _). eauto.
  - intros C B. destruct (IsBinary_value m im x y w h W C R (bytes_roi _ _ _ _ _ _ B R)) as (b & He & _). eauto.
  - intros [|].
    + destruct (Projection_horizontal m im x y w h W R) as (p & He & _). eauto.
    + destruct (Projection_vertical m im x y w h W R) as (p & He & _). eauto.
  - intros r. destruct (Z.eq_dec (Z.of_nat (length r)) (w * icc im * h)) as [E|E].
    + destruct (Accumulate_value m im x y w h r W R E) as (r' & He & _). eauto.
    + exists r. right. unfold Accumulate. rewrite (valid_roi_ok m) by assumption.
      rewrite (u32_width m im x w) by (auto; first [apply R|destruct R; lia]).
      pose proof (gray_area m im x y w h W R). pose proof (wf_cc_pos _ _ W).
      assert (Hwc : 0 < w * icc im) by (destruct R; nia). assert (0 < h) by apply R.
      destruct (OptimiseRoi (w * icc im) h [im]) as [w' h'] eqn:Ho.
      assert (Hwh : w' * h' = w * icc im * h).
      { destruct (OptimiseRoi_cases (w * icc im) h [im]) as [E1|(E1 & _)]; try nia; rewrite E1 in Ho;
          injection Ho as <- <-; nia. }
      rewrite Hwh, (u32_small (w * icc im * h)) by nia.
      destruct (Z.eqb_spec (Z.of_nat (length r)) (w * icc im * h)); [contradiction|reflexivity].
Qed.
Example C05_case : area emem (img 1 5 4 3 16) 1 1 3 2 /\ area emem (mkImage 5 4 3 1 16 (Some (1, 7)) 0) 2 1 3 2.
Proof. split; solve_area. Qed.
Print Assumptions C05_two_inputs.
Print Assumptions C05_same_colour_count.
Print Assumptions C05_gray.
Print Assumptions C05_transpose.
Print Assumptions C05_colour_conversion.
Print Assumptions C05_split_merge.
Print Assumptions C05_readers.

(** ** C06 *)
Theorem C06_fill m im x y w h v :
  area m im x y w h -> writes (Fill m im x y w h v) m im x y w h (fun _ _ _ => v).
Proof. intros [W R]. apply Fill_writes; assumption. Qed.
Example C06_case : area emem (img 1 5 4 4 24) 1 2 3 2.
Proof. solve_area. Qed.
Print Assumptions C06_fill.

(** ** C07 *)
Theorem C07_flip m inp xi yi out xo yo w h hor ver :
  area m inp xi yi w h -> area m out xo yo w h -> icc inp = 1 -> icc out = 1 ->
  disjoint out xo yo w h inp xi yi w h ->
  writes (Flip m inp xi yi out xo yo w h hor ver) m out xo yo w h
    (fun i j c => pixel m inp (xi + (if hor then w - 1 - i else i)) (yi + (if ver then h - 1 - j else j)) c).
Proof. intros [W1 R1] [Wo Ro] C Co D. apply Flip_writes; assumption. Qed.
(** [back] may be the input image itself. *)
Theorem C07_flip_twice m inp xi yi out xo yo back xb yb w h hor ver :
  area m inp xi yi w h -> area m out xo yo w h -> area m back xb yb w h ->
  icc inp = 1 -> icc out = 1 -> icc back = 1 ->
  disjoint out xo yo w h inp xi yi w h -> disjoint back xb yb w h out xo yo w h ->
  exists m1 m2, Flip m inp xi yi out xo yo w h hor ver = Ok m1 /\
    Flip m1 out xo yo back xb yb w h hor ver = Ok m2 /\
    forall i j, 0 <= i < w -> 0 <= j < h ->
      pixel m2 back (xb + i) (yb + j) 0 = pixel m inp (xi + i) (yi + j) 0.
Proof.
  intros [W1 R1] [Wo Ro] [Wb Rb] C Co Cb D Db.
  destruct (Flip_writes m inp xi yi out xo yo w h hor ver W1 Wo C Co R1 Ro D) as (m1 & E1 & V1 & L1 & F1).
  destruct (Flip_writes m1 out xo yo back xb yb w h hor ver (wf_same_len _ _ _ L1 Wo) (wf_same_len _ _ _ L1 Wb) Co Cb Ro Rb Db)
    as (m2 & E2 & V2 & L2 & F2).
  exists m1, m2. split; [exact E1|]. split; [exact E2|]. intros i j Hi Hj.
  rewrite (V2 i j 0) by (unfold inside; lia).
  rewrite (V1 (if hor then w - 1 - i else i) (if ver then h - 1 - j else j) 0) by (unfold inside; destruct hor, ver; lia).
  f_equal; destruct hor, ver; lia.
Qed.
Example C07_case : area emem (img 1 5 4 1 8) 1 1 3 2 /\ area emem (img 2 4 3 1 4) 0 1 3 2 /\
  disjoint (img 2 4 3 1 4) 0 1 3 2 (img 1 5 4 1 8) 1 1 3 2 /\ disjoint (img 1 5 4 1 8) 1 1 3 2 (img 2 4 3 1 4) 0 1 3 2.
Proof. split; [solve_area|]. split; [solve_area|]. split; solve_disjoint. Qed.
Print Assumptions C07_flip.
Print Assumptions C07_flip_twice.

(** ** C08 *)
Theorem C08_transpose m inp xi yi out xo yo w h :
  area m inp xi yi w h -> area m out xo yo h w -> icc inp = 1 -> icc out = 1 ->
  disjoint out xo yo h w inp xi yi w h ->
  writes (Transpose m inp xi yi out xo yo w h) m out xo yo h w
    (fun i j c => pixel m inp (xi + j) (yi + i) 0).
Proof. intros [W1 R1] [Wo Ro] C Co D. apply Transpose_writes; assumption. Qed.
Theorem C08_transpose_twice m inp xi yi out xo yo back xb yb w h :
  area m inp xi yi w h -> area m out xo yo h w -> area m back xb yb w h ->
  icc inp = 1 -> icc out = 1 -> icc back = 1 ->
  disjoint out xo yo h w inp xi yi w h -> disjoint back xb yb w h out xo yo h w ->
  exists m1 m2, Transpose m inp xi yi out xo yo w h = Ok m1 /\
    Transpose m1 out xo yo back xb yb h w = Ok m2 /\
    forall i j, 0 <= i < w -> 0 <= j < h ->
      pixel m2 back (xb + i) (yb + j) 0 = pixel m inp (xi + i) (yi + j) 0.
Proof.
  intros [W1 R1] [Wo Ro] [Wb Rb] C Co Cb D Db.
  destruct (Transpose_writes m inp xi yi out xo yo w h W1 Wo C Co R1 Ro D) as (m1 & E1 & V1 & L1 & F1).
  destruct (Transpose_writes m1 out xo yo back xb yb h w (wf_same_len _ _ _ L1 Wo) (wf_same_len _ _ _ L1 Wb) Co Cb Ro Rb Db)
    as (m2 & E2 & V2 & L2 & F2).
  exists m1, m2. split; [exact E1|]. split; [exact E2|]. intros i j Hi Hj.
  rewrite (V2 i j 0) by (unfold inside; lia). apply (V1 j i 0). unfold inside; lia.
Qed.
Example C08_case : area emem (img 1 5 4 1 8) 1 1 3 2 /\ area emem (img 2 4 4 1 4) 0 1 2 3 /\
  disjoint (img 2 4 4 1 4) 0 1 2 3 (img 1 5 4 1 8) 1 1 3 2.
Proof. split; [solve_area|]. split; [solve_area|solve_disjoint]. Qed.
Print Assumptions C08_transpose.
Print Assumptions C08_transpose_twice.

(** ** C09 *)
Theorem C09_split m inp xi yi o1 x1 y1 o2 x2 y2 o3 x3 y3 w h :
  area m inp xi yi w h -> area m o1 x1 y1 w h -> area m o2 x2 y2 w h -> area m o3 x3 y3 w h ->
  icc inp = 3 -> icc o1 = 1 -> icc o2 = 1 -> icc o3 = 1 ->
  disjoint inp xi yi w h o1 x1 y1 w h -> disjoint inp xi yi w h o2 x2 y2 w h ->
  disjoint inp xi yi w h o3 x3 y3 w h ->
  disjoint o1 x1 y1 w h o2 x2 y2 w h -> disjoint o1 x1 y1 w h o3 x3 y3 w h ->
  disjoint o2 x2 y2 w h o3 x3 y3 w h ->
  writes3 (Split m inp xi yi o1 x1 y1 o2 x2 y2 o3 x3 y3 w h) m o1 x1 y1 o2 x2 y2 o3 x3 y3 w h
    (fun i j => pixel m inp (xi + i) (yi + j) 0)
    (fun i j => pixel m inp (xi + i) (yi + j) 1)
    (fun i j => pixel m inp (xi + i) (yi + j) 2).
Proof. intros [] [] [] [] ? ? ? ? ? ? ? ? ? ?. apply Split_writes; assumption. Qed.
Theorem C09_merge m in1 x1 y1 in2 x2 y2 in3 x3 y3 out xo yo w h :
  area m in1 x1 y1 w h -> area m in2 x2 y2 w h -> area m in3 x3 y3 w h -> area m out xo yo w h ->
  icc in1 = 1 -> icc in2 = 1 -> icc in3 = 1 -> icc out = 3 ->
  disjoint out xo yo w h in1 x1 y1 w h -> disjoint out xo yo w h in2 x2 y2 w h ->
  disjoint out xo yo w h in3 x3 y3 w h ->
  writes (Merge m in1 x1 y1 in2 x2 y2 in3 x3 y3 out xo yo w h) m out xo yo w h
    (fun i j c => if c =? 0 then pixel m in1 (x1 + i) (y1 + j) 0
                  else if c =? 1 then pixel m in2 (x2 + i) (y2 + j) 0
                  else pixel m in3 (x3 + i) (y3 + j) 0).
Proof. intros [] [] [] [] ? ? ? ? ? ? ?. apply Merge_writes; assumption. Qed.
(** Split, then Merge into [back] (which may be the original image). *)
Theorem C09_split_merge m inp xi yi o1 x1 y1 o2 x2 y2 o3 x3 y3 back xb yb w h :
  area m inp xi yi w h -> area m o1 x1 y1 w h -> area m o2 x2 y2 w h -> area m o3 x3 y3 w h ->
  area m back xb yb w h ->
  icc inp = 3 -> icc o1 = 1 -> icc o2 = 1 -> icc o3 = 1 -> icc back = 3 ->
  disjoint inp xi yi w h o1 x1 y1 w h -> disjoint inp xi yi w h o2 x2 y2 w h ->
  disjoint inp xi yi w h o3 x3 y3 w h ->
  disjoint o1 x1 y1 w h o2 x2 y2 w h -> disjoint o1 x1 y1 w h o3 x3 y3 w h ->
  disjoint o2 x2 y2 w h o3 x3 y3 w h ->
  disjoint back xb yb w h o1 x1 y1 w h -> disjoint back xb yb w h o2 x2 y2 w h ->
  disjoint back xb yb w h o3 x3 y3 w h ->
  exists m1 m2, Split m inp xi yi o1 x1 y1 o2 x2 y2 o3 x3 y3 w h = Ok m1 /\
    Merge m1 o1 x1 y1 o2 x2 y2 o3 x3 y3 back xb yb w h = Ok m2 /\
    forall i j c, inside w h 3 i j c ->
      pixel m2 back (xb + i) (yb + j) c = pixel m inp (xi + i) (yi + j) c.
Proof.
  intros [Wi Ri] [W1 R1] [W2 R2] [W3 R3] [Wb Rb] Ci C1 C2 C3 Cb D1 D2 D3 D12 D13 D23 B1 B2 B3.
  destruct (Split_writes m inp xi yi o1 x1 y1 o2 x2 y2 o3 x3 y3 w h) as (m1 & E1 & V1 & L1 & F1); auto.
  destruct (Merge_writes m1 o1 x1 y1 o2 x2 y2 o3 x3 y3 back xb yb w h) as (m2 & E2 & V2 & _ & _);
    auto; try (apply (wf_same_len m); assumption).
  exists m1, m2. split; [exact E1|]. split; [exact E2|].
  intros i j c (Hi & Hj & Hc). rewrite V2 by (unfold inside; lia).
  destruct (V1 i j) as (A1 & A2 & A3); [unfold inside; lia|].
  destruct (Z.eqb_spec c 0) as [->|]; [assumption|]. destruct (Z.eqb_spec c 1) as [->|]; [assumption|].
  replace c with 2 by lia. assumption.
Qed.
(** ExtractChannel writes the channel that Split writes to its output number [ch]; the
    output may even be disjoint from nothing but the pixels still to be read. *)
Theorem C09_extract_channel m inp xi yi out xo yo w h ch :
  area m inp xi yi w h -> area m out xo yo w h -> icc out = 1 -> 0 <= ch < icc inp ->
  disjoint out xo yo w h inp xi yi w h ->
  writes (ExtractChannel m inp xi yi out xo yo w h ch) m out xo yo w h
    (fun i j c => pixel m inp (xi + i) (yi + j) ch).
Proof.
  intros [W1 R1] [Wo Ro] Co Hc D. apply ExtractChannel_writes; auto.
  intros i j i' j' (Hi & Hj & _) (Hi' & Hj' & _) He. exfalso.
  refine (disjoint_px _ _ _ _ _ _ _ _ _ _ i j 0 i' j' ch D _ _ He); unfold inside; lia.
Qed.
Example C09_case : area emem (img 1 5 4 3 16) 1 1 3 2 /\ area emem (img 2 4 3 1 4) 0 1 3 2 /\
  area emem (img 3 3 2 1 3) 0 0 3 2 /\ area emem (img 4 9 9 1 12) 5 6 3 2 /\
  disjoint (img 1 5 4 3 16) 1 1 3 2 (img 2 4 3 1 4) 0 1 3 2 /\ disjoint (img 3 3 2 1 3) 0 0 3 2 (img 4 9 9 1 12) 5 6 3 2.
Proof. repeat (split; [solve_area|]). split; solve_disjoint. Qed.
Print Assumptions C09_split.
Print Assumptions C09_merge.
Print Assumptions C09_split_merge.
Print Assumptions C09_extract_channel.

(** ** C10, C11 *)
Theorem C10_rgb_to_bgr m inp xi yi out xo yo w h :
  area m inp xi yi w h -> area m out xo yo w h -> icc inp = 3 -> icc out = 3 ->
  disjoint out xo yo w h inp xi yi w h ->
  writes (RgbToBgr m inp xi yi out xo yo w h) m out xo yo w h
    (fun i j c => pixel m inp (xi + i) (yi + j) (2 - c)).
Proof. intros [] [] ? ? ?. apply RgbToBgr_writes; assumption. Qed.
Theorem C10_rgb_to_bgr_twice m inp xi yi out xo yo back xb yb w h :
  area m inp xi yi w h -> area m out xo yo w h -> area m back xb yb w h ->
  icc inp = 3 -> icc out = 3 -> icc back = 3 ->
  disjoint out xo yo w h inp xi yi w h -> disjoint back xb yb w h out xo yo w h ->
  exists m1 m2, RgbToBgr m inp xi yi out xo yo w h = Ok m1 /\
    RgbToBgr m1 out xo yo back xb yb w h = Ok m2 /\
    forall i j c, inside w h 3 i j c ->
      pixel m2 back (xb + i) (yb + j) c = pixel m inp (xi + i) (yi + j) c.
Proof.
  intros [W1 R1] [Wo Ro] [Wb Rb] C Co Cb D Db.
  destruct (RgbToBgr_writes m inp xi yi out xo yo w h W1 Wo C Co R1 Ro D) as (m1 & E1 & V1 & L1 & F1).
  destruct (RgbToBgr_writes m1 out xo yo back xb yb w h (wf_same_len _ _ _ L1 Wo) (wf_same_len _ _ _ L1 Wb) Co Cb Ro Rb Db)
    as (m2 & E2 & V2 & L2 & F2).
  exists m1, m2. split; [exact E1|]. split; [exact E2|]. intros i j c (Hi & Hj & Hc).
  rewrite V2 by (unfold inside; lia). rewrite V1 by (unfold inside; lia). f_equal. lia.
Qed.
Example C10_case : area emem (img 1 5 4 3 16) 1 1 3 2 /\ area emem (img 2 4 3 3 12) 0 1 3 2 /\
  disjoint (img 2 4 3 3 12) 0 1 3 2 (img 1 5 4 3 16) 1 1 3 2.
Proof. split; [solve_area|]. split; [solve_area|solve_disjoint]. Qed.
Print Assumptions C10_rgb_to_bgr.
Print Assumptions C10_rgb_to_bgr_twice.

Definition C11_claim : Prop :=
  forall m im x y w h, area m im x y w h -> icc im = 3 -> bytes m im ->
  writes (RgbToBgr m im x y im x y w h) m im x y w h (fun i j c => pixel m im (x + i) (y + j) (2 - c)).
(** A 1x1 image with (r,g,b) = (10,20,30): the result is (10,20,10). *)
Definition c11_mem : mem := fun b => mkBlock 3 (fun o => if o =? 0 then 10 else if o =? 1 then 20 else 30).
Theorem C11_rgb_to_bgr_in_place_refuted : ~ C11_claim.
Proof.
  intros H. specialize (H c11_mem (img 1 1 1 3 3) 0 0 1 1).
  destruct H as (m' & He & Hv & _).
  - solve_area.
  - reflexivity.
  - intros x y c _ _ _. unfold pixel, get, c11_mem. cbn [bget]. destruct (_ =? _); [|destruct (_ =? _)]; lia.
  - specialize (Hv 0 0 0 ltac:(unfold inside; cbn; lia)). vm_compute in He. injection He as <-. vm_compute in Hv. discriminate Hv.
Qed.
Print Assumptions C11_rgb_to_bgr_in_place_refuted.
