(** Properties C185 and C186: the length and the contour of a blob. *)
From Coq Require Import ZArith List Bool Lia.
From Verif Require Import Base Image Spec BaseProofs ImgFun ImgLemmas ImgProofs ReduceProofs PropsA Double.
From Verif Require Import Blob BlobProofs BlobFilter PropsI Measure Outline PropsAG.
Import ListNotations.
Open Scope Z_scope.
Ltac Zify.zify_post_hook ::= idtac.

(** ** The farthest points of a blob are on its contour *)
Section FAR.
Variables (m : mem) (im : image) (x y w h t : Z) (b : blob).
Let white := bright m im x y w h t.
Hypothesis b_white : forall p, In p (bpoints b) -> white p.
Hypothesis b_one : forall p, In p (bpoints b) -> forall q, In q (bpoints b) <-> linked white p q.
Hypothesis b_out : outlines white b.
Let dec := bright_dec m im x y w h t.
Let number := phi white dec (bcontour b) (y - 1).
Let Cw := c_white m im x y w h t b b_white b_out.
Let Ca := c_after m im x y w h t b b_white b_out.
Let Cg := c_grows m im x y w h t b b_one b_out.

Lemma along_row cy a n : 0 <= n -> (forall x', a <= x' <= a + n -> ~ In (x', cy) (bpoints b)) -> number (a, cy) = number (a + n, cy).
Proof.
  intros Hn. pattern n. apply natlike_ind; [|clear n Hn|exact Hn].
  - intros _. rewrite Z.add_0_r. reflexivity.
  - intros n Hn IH H. rewrite IH by (intros x' Hx'; apply H; lia). replace (a + Z.succ n) with (a + n + 1) by lia.
    unfold number. rewrite (phi_right white dec (bcontour b) (x - 1) (y - 1) Cw Ca Cg).
    rewrite cross_none; [symmetry; apply xorb_false_r| |]; apply not_true_is_false; intros E; apply onC_spec, (contour_bright _ _ b_out), H in E; (exact E || lia).
Qed.
Lemma along_column cx a n : 0 <= n -> (forall y', a <= y' <= a + n -> ~ In (cx, y') (bpoints b)) -> number (cx, a) = number (cx, a + n).
Proof.
  intros Hn. pattern n. apply natlike_ind; [|clear n Hn|exact Hn].
  - intros _. rewrite Z.add_0_r. reflexivity.
  - intros n Hn IH H. rewrite IH by (intros x' Hx'; apply H; lia). replace (a + Z.succ n) with (a + n + 1) by lia.
    unfold number. rewrite (phi_down white dec (bcontour b) (x - 1) (y - 1) Ca).
    rewrite cross_none; [symmetry; apply xorb_false_r| |]; apply not_true_is_false; intros E; apply onC_spec, (contour_bright _ _ b_out), H in E; (exact E || lia).
Qed.

(** A point with no other point of the blob to one side of it, or above or below it. *)
Definition free_side (l : list (Z * Z)) (p : Z * Z) : Prop :=
  (forall k, 0 < k -> ~ In (fst p + k, snd p) l) \/ (forall k, 0 < k -> ~ In (fst p - k, snd p) l) \/
  (forall k, 0 < k -> ~ In (fst p, snd p + k) l) \/ (forall k, 0 < k -> ~ In (fst p, snd p - k) l).
Lemma free_contour p : In p (bpoints b) -> free_side (bpoints b) p -> In p (bcontour b).
Proof.
  intros Hp H. destruct p as [a c]. unfold free_side in H. cbn [fst snd] in H. destruct (b_white _ Hp) as (W1 & W2 & _). cbn [fst snd] in W1, W2.
  assert (G : forall q, near q (a, c) -> ~ In q (bpoints b) -> number q = false -> In (a, c) (bcontour b)).
  { intros q N Nq E. apply (leaves m im x y w h t b b_white b_one b_out (a, c) q Hp N); [|exact E]. intros Wq. apply Nq.
    apply (b_next m im x y w h t b b_one (a, c)); [exact Hp|apply adjacent_sym, near_adjacent, N|exact Wq]. }
  assert (Far : forall q, (fst q < x \/ x + w <= fst q) \/ (snd q < y \/ y + h <= snd q) -> number q = false).
  { intros [qx qy] D. cbn [fst snd] in D. destruct D as [D|D].
    - apply (no_column m im x y w h t b b_white b_out). intros p I. destruct (b_white _ I) as (V1 & V2 & _). lia.
    - apply (no_row m im x y w h t b b_white b_one b_out). intros p I. destruct (b_white _ I) as (V1 & V2 & _). lia. }
  destruct H as [H|[H|[H|H]]].
  - apply (G (a + 1, c)); [unfold near; cbn [fst snd]; lia|apply H; lia|].
    rewrite (along_row c (a + 1) (x + w - a)) by (lia || (intros x' Hx'; replace x' with (a + (x' - a)) by ring; apply H; lia)).
    apply Far. cbn [fst]. lia.
  - apply (G (a - 1, c)); [unfold near; cbn [fst snd]; lia|apply H; lia|].
    pose proof (along_row c (x - 1) (a - x)) as E. replace (x - 1 + (a - x)) with (a - 1) in E by ring. rewrite <- E.
    + apply Far. cbn [fst]. lia.
    + lia.
    + intros x' Hx'. replace x' with (a - (a - x')) by ring. apply H. lia.
  - apply (G (a, c + 1)); [unfold near; cbn [fst snd]; lia|apply H; lia|].
    rewrite (along_column a (c + 1) (y + h - c)) by (lia || (intros y' Hy'; replace y' with (c + (y' - c)) by ring; apply H; lia)).
    apply Far. cbn [snd]. lia.
  - apply (G (a, c - 1)); [unfold near; cbn [fst snd]; lia|apply H; lia|].
    pose proof (along_column a (y - 1) (c - y)) as E. replace (y - 1 + (c - y)) with (c - 1) in E by ring. rewrite <- E.
    + apply Far. cbn [snd]. lia.
    + lia.
    + intros y' Hy'. replace y' with (c - (c - y')) by ring. apply H. lia.
Qed.
Lemma farthest_free p q : (forall r, In r (bpoints b) -> dist2 p r <= dist2 p q) -> free_side (bpoints b) q.
Proof.
  intros H. destruct p as [a c], q as [d e]. unfold free_side, dist2 in *. cbn [fst snd] in *.
  destruct (Z_le_dec a d) as [L|L].
  - left. intros k Hk I. specialize (H _ I). cbn [fst snd] in H. nia.
  - right. left. intros k Hk I. specialize (H _ I). cbn [fst snd] in H. nia.
Qed.
End FAR.

(** ** C185: the length is the largest distance of two points *)
Definition is_diameter (l : list (Z * Z)) (v : double) : Prop := exists d, v = dsqrt (dofZ d) /\
  (forall p q, In p l -> In q l -> (fst p - fst q) * (fst p - fst q) + (snd p - snd q) * (snd p - snd q) <= d) /\
  exists p q, In p l /\ In q l /\ (fst p - fst q) * (fst p - fst q) + (snd p - snd q) * (snd p - snd q) = d.
Definition C185_claim : Prop := forall lm m im x y w h p t l,
  area m im x y w h -> icc im = 1 -> (w + 2) * (h + 1) < W32 ->
  find lm m im x y w h p t = Ok l -> forall i, In i l ->
  forall hist o, asks lm hist (new_info (iblob i)) = Ok o ->
    exists v, answers lm QLength o = Ok (ADouble v) /\ is_diameter (bpoints (iblob i)) v.
(** Whatever the size of the region: blobs without two points 2^31 or more apart (squared) have the right length,
    for all others the computation overflows. *)
Lemma farthest_from_dist p : forall l s s', farthest_from p l s = Ok s' -> forall q, In q l -> exists d, distance p q = Ok d.
Proof.
  induction l as [|a l IH]; intros s s' E q Hq; [destruct Hq|]. cbn [farthest_from] in E. unfold farther at 1 in E.
  destruct (distance p a) as [d| | |] eqn:Ed; try discriminate. cbn [bind] in E.
  destruct Hq as [->|Hq]; [eauto|]. exact (IH _ _ E q Hq).
Qed.
Lemma farthest_dist : forall l s s', farthest l s = Ok s' -> forall p q, In p l -> In q l -> p <> q ->
  (exists d, distance p q = Ok d) \/ (exists d, distance q p = Ok d).
Proof.
  induction l as [|a l IH]; intros s s' E p q Hp Hq N; [destruct Hp|]. cbn [farthest] in E.
  destruct (farthest_from a l s) as [s1| | |] eqn:E1; try discriminate. cbn [bind] in E.
  destruct Hp as [->|Hp], Hq as [->|Hq].
  - contradiction.
  - left. exact (farthest_from_dist _ _ _ _ E1 q Hq).
  - right. exact (farthest_from_dist _ _ _ _ E1 p Hp).
  - exact (IH _ _ E p q Hp Hq N).
Qed.
Lemma s32_u32_small v : Z.abs v < 2147483648 -> s32 (u32 v) = v.
Proof. intros Hv. unfold s32, u32, W32. destruct (Z.ltb_spec (v mod 4294967296) 2147483648); Z.div_mod_to_equations; lia. Qed.
Lemma distance_small p q d : Z.abs (fst p - fst q) < 2147483648 -> Z.abs (snd p - snd q) < 2147483648 ->
  distance p q = Ok d -> dist2 p q < 2147483648.
Proof.
  intros Hx Hy E. unfold distance in E. rewrite !s32_u32_small in E by lia. unfold int32 in E at 1.
  destruct (_ && _); [|discriminate E]. cbn [bind] in E. unfold int32 in E at 1.
  destruct (_ && _); [|discriminate E]. cbn [bind] in E. unfold int32 in E.
  destruct (_ && _) eqn:B; [|discriminate E]. apply andb_true_iff in B. destruct B as (_ & B). apply Z.ltb_lt in B. exact B.
Qed.
Lemma distance_or p q : (exists d, distance p q = Ok d) \/ distance p q = UB.
Proof.
  unfold distance, int32. destruct (_ && _); [|right; reflexivity]. cbn [bind]. destruct (_ && _); [|right; reflexivity]. cbn [bind].
  destruct (_ && _); [left; eauto|right; reflexivity].
Qed.
Lemma farthest_from_or p : forall l s, (exists s', farthest_from p l s = Ok s') \/ farthest_from p l s = UB.
Proof.
  induction l as [|a l IH]; intros s; [left; eexists; reflexivity|]. cbn [farthest_from]. unfold farther.
  destruct (distance_or p a) as [[d ->]| ->]; cbn [bind]; [apply IH|right; reflexivity].
Qed.
Lemma farthest_or : forall l s, (exists s', farthest l s = Ok s') \/ farthest l s = UB.
Proof.
  induction l as [|a l IH]; intros s; [left; eexists; reflexivity|]. cbn [farthest].
  destruct (farthest_from_or a l s) as [[d ->]| ->]; cbn [bind]; [apply IH|right; reflexivity].
Qed.
Theorem C185_length_partial lm m im x y w h p t l :
  area m im x y w h -> icc im = 1 -> (w + 2) * (h + 1) < W32 ->
  find lm m im x y w h p t = Ok l -> forall i, In i l ->
  forall hist o, asks lm hist (new_info (iblob i)) = Ok o ->
    ((forall q r, In q (bpoints (iblob i)) -> In r (bpoints (iblob i)) ->
      (fst q - fst r) * (fst q - fst r) + (snd q - snd r) * (snd q - snd r) < 2147483648) ->
     exists v, answers lm QLength o = Ok (ADouble v) /\ is_diameter (bpoints (iblob i)) v) /\
    (forall q r, In q (bpoints (iblob i)) -> In r (bpoints (iblob i)) ->
      2147483648 <= (fst q - fst r) * (fst q - fst r) + (snd q - snd r) * (snd q - snd r) -> answers lm QLength o = UB).
Proof.
  intros A C Hsz E1 i1 Hi1 hist o Eh.
  assert (Hpos : 0 < w /\ 0 < h) by (destruct A as (_ & [R1 R2 R3 R4 R5 R6]); lia).
  destruct (C60_components_partial lm m im x y w h t A C Hsz) as (l' & Hl' & (Hcov & _ & Hone) & Ho).
  revert Eh. destruct (find_sub lm m im x y w h p t l l' Hl' E1 i1 Hi1) as (i & Hi & <-). intros Eh. specialize (Ho i Hi).
  pose proof (in_map iblob _ _ Hi) as Hb. destruct (Hone _ Hb) as (Hne & Hlk). set (b := iblob i) in *.
  assert (Hw : forall p, In p (bpoints b) -> bright m im x y w h t p) by (intros r Hr; apply Hcov; eauto).
  pose proof (contour_bright _ _ Ho) as Sub.
  assert (Cn : bcontour b <> []).
  { destruct Ho as (_ & _ & _ & s0 & _ & _ & _ & Hc). intros Z0. assert (I : In s0 (bcontour b)) by (apply Hc; constructor).
    rewrite Z0 in I. destruct I. }
  (* the largest distance of points is one of contour points *)
  assert (Far : forall q r, In q (bpoints b) -> In r (bpoints b) -> exists r', In r' (bcontour b) /\ dist2 q r <= dist2 q r').
  { intros q r Hq Hr. destruct (far_point (dist2 q) (bpoints b) Hne) as (r' & R1 & R2). exists r'. split; [|apply R2, Hr].
    apply (free_contour m im x y w h t b Hw Hlk Ho r' R1). apply (farthest_free b q r'). exact R2. }
  assert (Both : forall q r, In q (bpoints b) -> In r (bpoints b) -> exists q' r', In q' (bcontour b) /\ In r' (bcontour b) /\ dist2 q r <= dist2 q' r').
  { intros q r Hq Hr. destruct (Far q r Hq Hr) as (r' & R1 & R2). destruct (Far r' q (Sub _ R1) Hq) as (q' & Q1 & Q2).
    rewrite (dist2_sym r' q), (dist2_sym r' q') in Q2. exists q', r'. split; [exact Q1|]. split; [exact R1|]. lia. }
  destruct (C179_history lm b hist o Hne Cn Eh) as (Get & _).
  split.
  - intros Cl. destruct (extremes_ok (bcontour b)) as (s & Es & Up & At); [intros q r Hq Hr; apply Cl; apply Sub; assumption|].
    exists (dsqrt (dofZ (fst (fst s)))). split.
    { unfold answers. rewrite Get. cbn [measurement compute bind]. unfold blob_length. rewrite Es. reflexivity. }
    exists (fst (fst s)). split; [reflexivity|]. split.
    + intros q r Hq Hr. change (dist2 q r <= fst (fst s)). destruct (Both q r Hq Hr) as (q' & r' & Q1 & R1 & R2).
      pose proof (Up q' r' Q1 R1). lia.
    + destruct (At Cn) as (q & r & Hq & Hr & Eq). exists q, r. split; [apply Sub, Hq|]. split; [apply Sub, Hr|]. symmetry. exact Eq.
  - intros q r Hq Hr Big. change (2147483648 <= dist2 q r) in Big. destruct (Both q r Hq Hr) as (q' & r' & Q1 & R1 & R2).
    unfold answers. rewrite Get. cbn [measurement compute bind]. unfold blob_length, extremes.
    destruct (farthest_or (bcontour b) (0, (0, 0), (0, 0))) as [[s Es]|Es]; [exfalso|rewrite Es; reflexivity].
    assert (N : q' <> r') by (intros ->; unfold dist2 in R2, Big; lia).
    rewrite W32_val in Hsz.
    assert (Hw31 : w < 2147483648) by nia. assert (Hh31 : h < 2147483648) by nia.
    destruct (Hw q' (Sub _ Q1)) as (U1 & U2 & _). destruct (Hw r' (Sub _ R1)) as (V1 & V2 & _).
    destruct (farthest_dist _ _ _ Es q' r' Q1 R1 N) as [[d D]|[d D]]; apply distance_small in D; try lia.
    rewrite dist2_sym in D. lia.
Qed.
Example C185_case : (exists l, find zero_libm picture (img 1 7 5 1 8) 1 1 5 4 wide2 8 = Ok l /\ l <> []) /\
  (forall l, find zero_libm picture (img 1 7 5 1 8) 1 1 5 4 wide2 8 = Ok l -> forall i, In i l ->
   forall hist o, asks zero_libm hist (new_info (iblob i)) = Ok o ->
    exists v, answers zero_libm QLength o = Ok (ADouble v) /\ is_diameter (bpoints (iblob i)) v) /\
  answers zero_libm QLength (new_info (mkBlob [(3, 5); (6, 9); (4, 5)] [] [(3, 5); (6, 9); (4, 5)])) = Ok (ADouble (dofZ 5)).
Proof.
  split; [exact (proj1 C180_case)|]. split; [|vm_compute; reflexivity].
  assert (A : area picture (img 1 7 5 1 8) 1 1 5 4) by solve_area.
  assert (Hsz : (5 + 2) * (4 + 1) < W32) by (rewrite W32_val; lia).
  assert (Near : forall q r, bright picture (img 1 7 5 1 8) 1 1 5 4 8 q -> bright picture (img 1 7 5 1 8) 1 1 5 4 8 r ->
    (fst q - fst r) * (fst q - fst r) + (snd q - snd r) * (snd q - snd r) < 2147483648).
  { intros q r (U1 & U2 & _) (V1 & V2 & _). assert (Sq : forall v, -5 <= v <= 5 -> v * v <= 25) by (intros v Hv; nia).
    pose proof (Sq (fst q - fst r) ltac:(lia)). pose proof (Sq (snd q - snd r) ltac:(lia)). lia. }
  destruct (C60_components_partial zero_libm picture (img 1 7 5 1 8) 1 1 5 4 8 A eq_refl Hsz) as (l' & Hl' & (Hcov & _ & _) & _).
  intros l E i Hi hist o Eh.
  apply (C185_length_partial zero_libm picture (img 1 7 5 1 8) 1 1 5 4 wide2 8 l A eq_refl Hsz E i Hi hist o Eh).
  destruct (find_sub zero_libm picture (img 1 7 5 1 8) 1 1 5 4 wide2 8 l l' Hl' E i Hi) as (j & Hj & <-).
  intros q r Hq Hr. apply Near; apply Hcov; exists (iblob j); (split; [apply in_map, Hj|assumption]).
Qed.

(** A row of 46342 bright pixels: the squared distance of its ends overflows. *)
Definition long_row : mem := fun b => mkBlock 46342 (fun _ => 9).
Theorem C185_overflow_refuted : ~ C185_claim.
Proof.
  intros H. set (im := img 1 46342 1 1 46342).
  assert (A : area long_row im 0 0 46342 1) by (unfold im; solve_area).
  assert (Hsz : (46342 + 2) * (1 + 1) < W32) by (rewrite W32_val; lia).
  destruct (C60_components_partial zero_libm long_row im 0 0 46342 1 1 A eq_refl Hsz) as (l & Hl & (Hcov & _ & Hone) & Ho).
  assert (Wh : forall a, 0 <= a < 46342 -> bright long_row im 0 0 46342 1 1 (a, 0)).
  { intros a Ha. split; [cbn [fst]; lia|]. split; [cbn [snd]; lia|]. change (1 <= 9). lia. }
  destruct (proj1 (Hcov (0, 0)) (Wh 0 ltac:(lia))) as (b & Hb & I0). pose proof Hb as Hb'. apply in_map_iff in Hb'. destruct Hb' as (i & <- & Hi).
  destruct (Hone _ Hb) as (_ & Hlk).
  assert (Hw : forall p, In p (bpoints (iblob i)) -> bright long_row im 0 0 46342 1 1 p) by (intros r Hr; apply Hcov; eauto).
  assert (I1 : In (46341, 0) (bpoints (iblob i))).
  { apply (Hlk (0, 0) I0). assert (K : forall n, 0 <= n -> n < 46342 -> linked (bright long_row im 0 0 46342 1 1) (0, 0) (n, 0)).
    { intros n Hn. pattern n. apply natlike_ind; [intros _; constructor| |exact Hn]. intros k Hk IH L.
      eapply linked_step; [apply IH; lia| |apply Wh; lia]. split; [intros E; apply (f_equal fst) in E; cbn [fst] in E; lia|cbn [fst snd]; lia]. }
    apply K; lia. }
  pose proof (contour_extremes long_row im 0 0 46342 1 1 (iblob i) Hw Hlk (Ho i Hi)) as X.
  assert (Q : forall q, In q (bpoints (iblob i)) -> 0 <= fst q < 0 + 46342) by (intros q Hq; apply Hw in Hq; exact (proj1 Hq)).
  assert (C0 : In (0, 0) (bcontour (iblob i))) by (apply X; [exact I0|right; left; intros q Hq; apply Q in Hq; cbn [fst]; lia]).
  assert (C1 : In (46341, 0) (bcontour (iblob i))) by (apply X; [exact I1|left; intros q Hq; apply Q in Hq; cbn [fst]; lia]).
  destruct (H zero_libm long_row im 0 0 46342 1 no_limits 1 l A eq_refl Hsz Hl i Hi [] (new_info (iblob i)) eq_refl) as (v & E & _).
  unfold answers in E. rewrite (proj1 (C179_history zero_libm (iblob i) [] (new_info (iblob i))
    (proj1 (Hone _ Hb)) (contour_not_empty _ _ (Ho i Hi)) eq_refl)) in E.
  cbn [measurement compute bind] in E. unfold blob_length, extremes in E.
  destruct (farthest (bcontour (iblob i)) (0, (0, 0), (0, 0))) as [s| | |] eqn:Es; [|discriminate E ..].
  destruct (farthest_dist _ _ _ Es (0, 0) (46341, 0) C0 C1) as [[d D]|[d D]]; [discriminate|vm_compute in D; discriminate|vm_compute in D; discriminate].
Qed.
Print Assumptions C185_length_partial.
Print Assumptions C185_overflow_refuted.

(** ** C186: the contour is the outer edge *)

(** Points with a neighbour from which a path of dark pixels (sideways, up and down) leaves the region. *)
Definition on_outer_edge (m : mem) (im : image) (x y w h t : Z) (b : blob) (p : Z * Z) : Prop :=
  In p (bpoints b) /\ exists d, adjacent p d /\ escapes (bright m im x y w h t) x y w h d.
Definition C186_claim : Prop := forall lm m im x y w h p t l,
  area m im x y w h -> icc im = 1 -> (w + 2) * (h + 1) < W32 ->
  find lm m im x y w h p t = Ok l -> forall i, In i l ->
    NoDup (bcontour (iblob i)) /\ forall q, In q (bcontour (iblob i)) <-> on_outer_edge m im x y w h t (iblob i) q.
(** The outer edge is on the contour, once; what else is on it are edge points, too. *)
Theorem C186_contour_partial lm m im x y w h p t l :
  area m im x y w h -> icc im = 1 -> (w + 2) * (h + 1) < W32 ->
  find lm m im x y w h p t = Ok l -> forall i, In i l ->
    NoDup (bcontour (iblob i)) /\ (forall q, on_outer_edge m im x y w h t (iblob i) q -> In q (bcontour (iblob i))) /\
    (forall q, In q (bcontour (iblob i)) -> In q (bpoints (iblob i)) /\ exists d, adjacent q d /\ ~ bright m im x y w h t d) /\
    (forall q r, In q (bcontour (iblob i)) -> In r (bcontour (iblob i)) -> linked (fun s => In s (bcontour (iblob i))) q r).
Proof.
  intros A C Hsz E1 i1 Hi1. destruct (C60_components_partial lm m im x y w h t A C Hsz) as (l' & Hl & (Hcov & _ & Hone) & Ho).
  destruct (find_sub lm m im x y w h p t l l' Hl E1 i1 Hi1) as (i & Hi & <-).
  pose proof (in_map iblob _ _ Hi) as Hb. destruct (Hone _ Hb) as (_ & Hlk).
  assert (Hw : forall p, In p (bpoints (iblob i)) -> bright m im x y w h t p) by (intros q Hq; apply Hcov; eauto).
  pose proof (outer_edge m im x y w h t (iblob i) Hw Hlk (Ho i Hi)) as Out. set (b := iblob i) in *.
  destruct (Ho i Hi) as (NE & He & NC & s & Hs & Hf & Hse & Hc). fold b in NE, He, NC, Hs, Hf, Hse, Hc.
  split; [exact NC|]. split; [intros q (Hq & d & Ad & Ed); exact (Out q d Hq Ad Ed)|]. split.
  - intros q Hq. apply He. apply Hc in Hq. exact (linked_in (fun q => In q (bedges b)) s q Hse Hq).
  - assert (From : forall q, linked (fun q => In q (bedges b)) s q -> linked (fun r => In r (bcontour b)) s q).
    { intros q Hq. induction Hq as [|q r Hq IH Ar Hr]; [constructor|]. eapply linked_step; [exact IH|exact Ar|].
      apply Hc. eapply linked_step; [exact Hq|exact Ar|exact Hr]. }
    intros q r Hq Hr. apply Hc, From in Hq. apply Hc, From in Hr. eapply linked_trans; [|exact Hr].
    apply linked_sym; [|exact Hq]. apply Hc. constructor.
Qed.
(** A square of 5 x 5 pixels with a hole: the pixels around the hole are on the contour, too. *)
Definition pierced : mem := fun b => mkBlock 25 (fun o => if o =? 12 then 0 else 9).
Example C186_case : (match find zero_libm pierced (img 1 5 5 1 5) 0 0 5 5 no_limits 1 with
    | Ok l => map (fun i => (length (bpoints (iblob i)), length (bcontour (iblob i)))) l | _ => [] end = [(24%nat, 24%nat)]) /\
  forall b, In (0, 3) (bpoints b) -> on_outer_edge pierced (img 1 5 5 1 5) 0 0 5 5 1 b (0, 3).
Proof.
  split; [vm_compute; reflexivity|]. intros b Hb. split; [exact Hb|]. exists (-1, 3). split.
  - split; [discriminate|cbn; lia].
  - apply esc_out. cbn [fst snd]. lia.
Qed.
Theorem C186_inner_refuted : ~ C186_claim.
Proof.
  intros H. set (im := img 1 5 5 1 5). assert (A : area pierced im 0 0 5 5) by (unfold im; solve_area).
  assert (Hsz : (5 + 2) * (5 + 1) < W32) by (rewrite W32_val; lia).
  destruct (C60_components_partial zero_libm pierced im 0 0 5 5 1 A eq_refl Hsz) as (l & Hl & _).
  assert (N : match find zero_libm pierced im 0 0 5 5 no_limits 1 with
    | Ok (i :: _) => existsb (fun p => (fst p =? 1) && (snd p =? 1)) (bcontour (iblob i)) | _ => false end = true) by (vm_compute; reflexivity).
  pose proof Hl as Hl'. rewrite Hl in N. destruct l as [|i l]; [discriminate N|]. apply existsb_exists in N. destruct N as ([u v] & Hin & Huv).
  cbn [fst snd] in Huv. apply andb_true_iff in Huv. destruct Huv as [Hu Hv]. apply Z.eqb_eq in Hu, Hv. subst u v.
  destruct (H zero_libm pierced im 0 0 5 5 no_limits 1 (i :: l) A eq_refl Hsz Hl' i (or_introl eq_refl)) as (_ & K).
  apply K in Hin. destruct Hin as (_ & [a c] & (_ & A1 & A2) & Esc). cbn [fst snd] in A1, A2.
  assert (Wh : forall a c, 0 <= a < 5 -> 0 <= c < 5 -> c * 5 + a <> 12 -> bright pierced im 0 0 5 5 1 (a, c)).
  { intros a' c' Ha Hc N. split; [cbn [fst]; lia|]. split; [cbn [snd]; lia|]. cbn [fst snd].
    change (1 <= (if 0 + c' * 5 + a' * 1 + 0 =? 12 then 0 else 9)). destruct (Z.eqb_spec (0 + c' * 5 + a' * 1 + 0) 12); lia. }
  assert (Out : forall q, escapes (bright pierced im 0 0 5 5 1) 0 0 5 5 q -> ~ bright pierced im 0 0 5 5 1 q).
  { intros q [q' O|q' r Nq _ _]; [|exact Nq]. intros (W1 & W2 & _). apply O. split; assumption. }
  assert (G : forall q, escapes (bright pierced im 0 0 5 5 1) 0 0 5 5 q -> q <> (2, 2)).
  { intros q Hq. destruct Hq as [q O|q r Nq Bs Hr]; intros ->.
    - apply O. cbn [fst snd]. lia.
    - apply Out in Hr. apply Hr. destruct r as [u v]. unfold beside in Bs. cbn [fst snd] in Bs. apply Wh; lia. }
  destruct (Z.eq_dec (c * 5 + a) 12) as [E|E].
  - apply (G _ Esc). f_equal; lia.
  - apply (Out _ Esc). apply Wh; lia.
Qed.
Print Assumptions C186_contour_partial.
Print Assumptions C186_inner_refuted.
