(** Shared lemmas about regions of interest, validation and row merging. *)
From Coq Require Import ZArith List Bool Lia.
From Verif Require Import Base Image Spec BaseProofs ImgFun.
Import ListNotations.
Open Scope Z_scope.

Ltac Zify.zify_post_hook ::= Z.div_mod_to_equations.

Lemma W32_val : W32 = 4294967296.
Proof. reflexivity. Qed.

(** ** Validation *)

Lemma color_ok m im : wf m im -> IsCorrectColorCount im = true.
Proof.
  intros H. destruct (wf_cc _ _ H) as [E|[E|E]]; unfold IsCorrectColorCount; rewrite E; reflexivity.
Qed.

Lemma wf_not_empty m im : wf m im -> iempty im = false.
Proof. intros H. unfold iempty. destruct (idata im) eqn:E; auto. destruct (wf_data _ _ H E). Qed.

Lemma wf_cc_pos m im : wf m im -> 1 <= icc im <= 4.
Proof. intros H. destruct (wf_cc _ _ H) as [E|[E|E]]; rewrite E; lia. Qed.

Lemma wf_rs_pos m im : wf m im -> 0 < irs im.
Proof.
  intros H. pose proof (wf_rs _ _ H). pose proof (wf_w _ _ H). pose proof (wf_cc_pos _ _ H). nia.
Qed.

Lemma wf_bounds m im : wf m im ->
  0 < iw im < W32 /\ 0 < ih im < W32 /\ 0 < irs im < W32 /\ iw im <= iw im * icc im < W32.
Proof.
  intros H. pose proof (wf_rs _ _ H). pose proof (wf_w _ _ H). pose proof (wf_h _ _ H).
  pose proof (wf_cc_pos _ _ H). pose proof (wf_size _ _ H). pose proof (wf_rs_pos _ _ H). nia.
Qed.

Definition in_u32 (z : Z) : Prop := 0 <= z < W32.

(** The check made by ValidateImageParameters is exactly: image present, 1, 3 or 4
    channels, non-empty region inside the image. *)
Lemma valid_roi_true im x y w h :
  in_u32 x -> in_u32 y -> in_u32 w -> in_u32 h -> iw im < W32 -> ih im < W32 ->
  (valid_roi im x y w h = true <->
   idata im <> None /\ (icc im = 1 \/ icc im = 3 \/ icc im = 4) /\ roi_in im x y w h).
Proof.
  unfold in_u32. intros Hx Hy Hw Hh Biw Bih. unfold valid_roi.
  assert (Hc : IsCorrectColorCount im = true <-> (icc im = 1 \/ icc im = 3 \/ icc im = 4)).
  { unfold IsCorrectColorCount, GRAY_SCALE, RGB, RGBA. rewrite !orb_true_iff, !Z.eqb_eq. tauto. }
  assert (He : iempty im = false <-> idata im <> None).
  { unfold iempty. destruct (idata im); split; congruence. }
  assert (Hsum : forall a b c, 0 <= a < W32 -> 0 <= b < W32 -> c < W32 ->
     ((c <? u32 (a + b)) = false /\ (u32 (a + b) <? b) = false <-> a + b <= c)).
  { intros a b c Ha Hb Hcc. rewrite !Z.ltb_ge. unfold u32. pose proof W32_val.
    destruct (Z_lt_le_dec (a + b) W32).
    - rewrite Z.mod_small by lia. lia.
    - rewrite <- (Z.mod_unique (a + b) W32 1 (a + b - W32)) by lia. lia. }
  rewrite negb_true_iff, !orb_false_iff, negb_false_iff, !Z.eqb_neq.
  rewrite <- Hc, <- He.
  pose proof (Hsum x w (iw im) Hx Hw Biw) as H1. pose proof (Hsum y h (ih im) Hy Hh Bih) as H2.
  split.
  - intros (((((((E & C) & W0) & H0) & A) & B) & C1) & D1).
    split; [assumption|]. split; [assumption|].
    constructor; try lia; tauto.
  - intros (E & C & R). destruct R.
    assert ((iw im <? u32 (x + w)) = false /\ (u32 (x + w) <? w) = false) as [? ?] by (apply H1; lia).
    assert ((ih im <? u32 (y + h)) = false /\ (u32 (y + h) <? h) = false) as [? ?] by (apply H2; lia).
    repeat split; auto; lia.
Qed.

Lemma valid_roi_ok m im x y w h : wf m im -> roi_in im x y w h -> valid_roi im x y w h = true.
Proof.
  intros Hw Hr. pose proof (wf_bounds _ _ Hw) as (B1 & B2 & _). destruct Hr as [].
  apply valid_roi_true; unfold in_u32; try lia.
  split; [apply (wf_data _ _ Hw)|]. split; [apply (wf_cc _ _ Hw)|]. constructor; lia.
Qed.

(** ** Addresses *)

(** Address of sample [i] of row [j] of the region starting at ([x],[y]); [cc] channels. *)
Definition origin (im : image) (x y cc : Z) : ptr := padd (ibase im) (y * irs im + x * cc).

Lemma row_ptr_origin m im x y w h cc :
  wf m im -> roi_in im x y w h -> 0 <= cc <= icc im -> row_ptr im x y cc = origin im x y cc.
Proof.
  intros Hw Hr Hcc. pose proof (wf_bounds _ _ Hw) as (B1 & B2 & B3 & B4).
  pose proof (wf_rs _ _ Hw) as Hrs. pose proof (wf_size _ _ Hw) as Hs. destruct Hr as [].
  unfold row_ptr, origin. rewrite padd_padd.
  replace (dataptr im) with (ibase im).
  2:{ unfold dataptr, ibase. destruct (idata im) eqn:E; auto. destruct (wf_data _ _ Hw E). }
  rewrite !u32_small; auto.
  - split; [nia|]. apply Z.le_lt_trans with (iw im * icc im); nia.
  - split; [nia|]. apply Z.le_lt_trans with (ih im * irs im); nia.
Qed.

Lemma px_origin im x y i j c :
  px im (x + i) (y + j) c = padd (origin im x y (icc im)) (j * irs im + (i * icc im + c)).
Proof. unfold px, origin, padd; simpl. f_equal. lia. Qed.

Lemma u32_rows m im y h : wf m im -> 0 <= y -> 0 <= h -> y + h <= ih im ->
  u32 (h * irs im) = h * irs im.
Proof.
  intros Hw Hy Hh Hb. pose proof (wf_size _ _ Hw). pose proof (wf_rs_pos _ _ Hw).
  apply u32_small. split; [nia|]. apply Z.le_lt_trans with (ih im * irs im); nia.
Qed.

Lemma u32_width m im x w : wf m im -> 0 <= x -> 0 <= w -> x + w <= iw im ->
  u32 (w * icc im) = w * icc im.
Proof.
  intros Hw Hx Hw0 Hb. pose proof (wf_bounds _ _ Hw) as (B1 & B2 & B3 & B4).
  pose proof (wf_cc_pos _ _ Hw).
  apply u32_small. split; [nia|]. apply Z.le_lt_trans with (iw im * icc im); nia.
Qed.

Lemma cell_inb m im x y w h i j :
  wf m im -> roi_in im x y w h -> 0 <= i < w * icc im -> 0 <= j < h ->
  inb m (padd (origin im x y (icc im)) (j * irs im + i)) = true.
Proof.
  intros Hw Hr Hi Hj. apply inb_iff. unfold origin, padd; cbn [fst snd].
  pose proof (wf_rs _ _ Hw). pose proof (wf_lo _ _ Hw). pose proof (wf_hi _ _ Hw).
  pose proof (wf_rs_pos _ _ Hw). pose proof (wf_cc_pos _ _ Hw).
  destruct Hr as []. split; [nia|].
  assert ((y + j) * irs im + irs im <= ih im * irs im) by nia.
  assert (x * icc im + i < irs im) by nia. lia.
Qed.

Lemma cell_inj m im x y w h i j i' j' :
  wf m im -> roi_in im x y w h ->
  0 <= i < w * icc im -> 0 <= i' < w * icc im ->
  padd (origin im x y (icc im)) (j * irs im + i) = padd (origin im x y (icc im)) (j' * irs im + i') ->
  j = j' /\ i = i'.
Proof.
  intros Hw Hr Hi Hi' He. apply padd_inj in He.
  pose proof (wf_rs _ _ Hw). pose proof (wf_cc_pos _ _ Hw). destruct Hr as [].
  assert (i < irs im) by nia. assert (i' < irs im) by nia.
  assert (j = j') by nia. subst. lia.
Qed.

Lemma split_index cc i w : 0 < cc -> 0 <= i < w * cc ->
  0 <= i / cc < w /\ 0 <= i mod cc < cc /\ i = i / cc * cc + i mod cc.
Proof.
  intros Hc Hi. pose proof (Z.mod_pos_bound i cc Hc). pose proof (Z.div_mod i cc).
  split; [split; [apply Z.div_pos; lia|apply Z.div_lt_upper_bound; nia]|]. split; nia.
Qed.

Lemma join_index cc i c w : 0 <= i < w -> 0 <= c < cc -> 0 <= i * cc + c < w * cc.
Proof. intros. nia. Qed.

(** ** From samples to pixels *)

(** A result stated for the flat sample index of each row gives the pixel-wise result. *)
Lemma writes_of_samples {E} (r : res E mem) m out x y w h (val : Z -> Z -> Z) :
  wf m out ->
  (exists m', r = Ok m' /\ same_len m m' /\
     (forall q, (forall j i, 0 <= j < h -> 0 <= i < w * icc out ->
        q <> padd (origin out x y (icc out)) (j * irs out + i)) -> get m' q = get m q) /\
     (forall j i, 0 <= j < h -> 0 <= i < w * icc out ->
        get m' (padd (origin out x y (icc out)) (j * irs out + i)) = val j i)) ->
  writes r m out x y w h (fun i j c => val j (i * icc out + c)).
Proof.
  intros Hw (m' & He & Hl & Hf & Hv). exists m'. split; [exact He|]. split.
  - intros i j c (Hi & Hj & Hc). unfold pixel. rewrite px_origin. apply Hv; [lia|].
    apply join_index; lia.
  - split; [exact Hl|]. intros p Hp. apply Hf. intros j i Hj Hi.
    pose proof (wf_cc_pos _ _ Hw).
    destruct (split_index (icc out) i w) as (A & B & C); try lia.
    rewrite C. rewrite <- px_origin. apply Hp. unfold inside. lia.
Qed.

Lemma hazard_samples a xa ya b xb yb w h i j i' j' :
  no_hazard a xa ya b xb yb w h -> icc a = icc b -> 0 < icc a ->
  0 <= i < w * icc a -> 0 <= j < h -> 0 <= i' < w * icc b -> 0 <= j' < h ->
  padd (origin a xa ya (icc a)) (j * irs a + i) = padd (origin b xb yb (icc b)) (j' * irs b + i') ->
  j = j' /\ i = i'.
Proof.
  intros Hz Hcc Hpos Hi Hj Hi' Hj' He.
  destruct (split_index (icc a) i w) as (A & B & C); try lia.
  destruct (split_index (icc b) i' w) as (A' & B' & C'); try lia.
  rewrite C, C' in He. rewrite <- !px_origin in He.
  destruct (Hz (i / icc a) j (i mod icc a) (i' / icc b) j' (i' mod icc b)) as (E1 & E2 & E3);
    [unfold inside; lia|unfold inside; lia|exact He|].
  split; [assumption|]. rewrite C, C'. rewrite E1, E3. rewrite Hcc. reflexivity.
Qed.

(** ** Row merging *)

Lemma OptimiseRoi_cases W h ims :
  0 < W -> 0 < h ->
  OptimiseRoi W h ims = (W, h) \/
  (OptimiseRoi W h ims = (W * h, 1) /\ W * h < W32 /\ forall im, In im ims -> irs im = W).
Proof.
  intros HW Hh. unfold OptimiseRoi.
  destruct (forallb (full_row W) ims && (W <? (W32 - 1) / h)) eqn:E; auto.
  right. apply andb_true_iff in E as [E1 E2]. apply Z.ltb_lt in E2.
  assert (W * h < W32).
  { pose proof (Z.mul_div_le (W32 - 1) h Hh). nia. }
  split; [rewrite u32_small by nia; reflexivity|]. split; [assumption|].
  intros im Hin. rewrite forallb_forall in E1. specialize (E1 im Hin).
  unfold full_row in E1. apply Z.eqb_eq in E1. assumption.
Qed.

(** Merging rows does not change the sequence of steps. [S] is the column stride, [n] the
    number of columns of the unmerged rows. *)
Lemma opt_iter {E T} n S h ims w' h' (L : list (ptr * Z * Z)) (g : list ptr -> T -> res E T) t :
  0 < n -> 0 < S -> 0 < h ->
  OptimiseRoi (n * S) h ims = (w', h') ->
  (forall P rs s, In (P, rs, s) L -> s = S /\ exists im, In im ims /\ rs = irs im) ->
  exists n', w' = n' * S /\ 0 < n' /\ 0 < h' <= h /\
  iterM (Z.to_nat h') 0 (fun j => iterM (Z.to_nat n') 0 (fun i => g (cells L j i))) t
  = iterM (Z.to_nat h) 0 (fun j => iterM (Z.to_nat n) 0 (fun i => g (cells L j i))) t.
Proof.
  intros Hn HS Hh Ho HL.
  destruct (OptimiseRoi_cases (n * S) h ims) as [E1|(E1 & Hlt & Hrs)]; try nia.
  - rewrite E1 in Ho. injection Ho as <- <-. exists n. repeat split; auto; lia.
  - rewrite E1 in Ho. injection Ho as <- <-. exists (n * h). split; [lia|]. split; [nia|].
    split; [lia|].
    change (Z.to_nat 1) with 1%nat. cbn [iterM].
    rewrite bind_ok_r.
    assert (Hc : forall k, 0 <= k < n * h ->
              cells L 0 k = cells L (k / n) (k mod n)).
    { intros k Hk. unfold cells. apply map_ext_in. intros [[P rs] s] Hin. cbn [fst snd].
      destruct (HL P rs s Hin) as (-> & im & Him & ->). rewrite (Hrs im Him).
      f_equal. pose proof (Z.div_mod k n). nia. }
    pose proof (@iterM_nest E T (Z.to_nat n) (Z.to_nat h) (fun k => g (cells L (k / n) (k mod n))) 0 t) as Hnest.
    cbn [Z.mul] in Hnest.
    transitivity (iterM (Z.to_nat h * Z.to_nat n) 0 (fun k => g (cells L (k / n) (k mod n))) t).
    + replace (Z.to_nat (n * h)) with (Z.to_nat h * Z.to_nat n)%nat by nia.
      apply iterM_ext. intros k s Hk. rewrite Hc by nia. reflexivity.
    + rewrite <- Hnest. apply iterM_ext. intros j s Hj. apply iterM_ext. intros i u Hi.
      destruct (divmod_flat n j i) as [D1 D2]; [lia|].
      rewrite Z2Nat.id by lia. rewrite D1, D2. reflexivity.
Qed.

Lemma zip3_in ps : forall rs cs P r s,
  In (P, r, s) (zip3 ps rs cs) -> In r rs /\ In s cs.
Proof.
  induction ps as [|p ps IH]; intros [|r0 rs] [|c0 cs] P r s H; simpl in H; try tauto.
  destruct H as [H|H].
  - injection H as -> -> ->. simpl; auto.
  - apply IH in H. simpl; tauto.
Qed.

(** Nested pointer loops over a region after row merging visit the samples of the
    original region in order. *)
Lemma walk2_opt {E T} n S h ims w' h' p ps r rs (body : list ptr -> T -> res E T) t :
  0 < n -> 0 < S -> 0 < h -> 0 < r ->
  OptimiseRoi (n * S) h ims = (w', h') ->
  (forall x, In x (r :: rs) -> exists im, In im ims /\ x = irs im) ->
  length ps = length rs ->
  h * r < W32 ->
  walk h' (p :: ps) (r :: rs) (padd p (u32 (h' * r)))
    (fun cur t => walk w' cur (S :: repeat S (length ps)) (padd (nth 0 cur nullp) w') body t) t
  = iterM (Z.to_nat h) 0 (fun j => iterM (Z.to_nat n) 0 (fun i =>
      body (cells (zip3 (p :: ps) (r :: rs) (S :: repeat S (length ps))) j i))) t.
Proof.
  intros Hn HS Hh Hr Ho Hims Hl Hb.
  destruct (@opt_iter E T n S h ims w' h'
              (zip3 (p :: ps) (r :: rs) (S :: repeat S (length ps))) body t)
    as (n' & -> & Hn' & Hh' & He); auto.
  { intros P r0 s Hin. apply zip3_in in Hin as [Hin1 Hin2]. split.
    - simpl in Hin2. destruct Hin2 as [<-|Hin2]; auto. apply repeat_spec in Hin2; auto.
    - apply Hims; assumption. }
  rewrite <- He.
  rewrite u32_small by nia.
  apply walk2_iterM; rewrite ?repeat_length; try reflexivity; try lia; try nia.
Qed.

(** Without row merging. *)
Lemma walk2_plain {E T} n h w' p ps r rs c cs (body : list ptr -> T -> res E T) t :
  0 <= n -> 0 < c -> 0 <= h -> 0 < r -> w' = n * c ->
  length ps = length rs -> length ps = length cs ->
  h * r < W32 ->
  walk h (p :: ps) (r :: rs) (padd p (u32 (h * r)))
    (fun cur t => walk w' cur (c :: cs) (padd (nth 0 cur nullp) w') body t) t
  = iterM (Z.to_nat h) 0 (fun j => iterM (Z.to_nat n) 0 (fun i =>
      body (cells (zip3 (p :: ps) (r :: rs) (c :: cs)) j i))) t.
Proof.
  intros. rewrite u32_small by nia. apply walk2_iterM; auto; nia.
Qed.

Lemma roi_rows_small m im x y w h : wf m im -> roi_in im x y w h -> h * irs im < W32.
Proof.
  intros Hw []. pose proof (wf_size _ _ Hw). pose proof (wf_rs_pos _ _ Hw). nia.
Qed.
