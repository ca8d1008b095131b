(** Properties of the filters: C70, C71 and C92. *)
From Coq Require Import ZArith List Bool Lia Reals Lra Permutation.
From Verif Require Import Base BaseProofs Image Spec ImgFun ImgLemmas ImgProofs ReduceProofs SafeProofs Double Edge NumProofs
  Filter FilterProofs MagProofs PropsA.
From Flocq Require Import Core.
Import ListNotations.
Open Scope Z_scope.
Ltac Zify.zify_post_hook ::= Z.div_mod_to_equations.

(** ** C70 *)

(** [v] is the element in the middle when [l] is put in order. *)
Definition middle (l : list Z) (v : Z) : Prop :=
  exists s, Permutation l s /\ (forall i j, (i <= j < length s)%nat -> nth i s 0 <= nth j s 0) /\
            nth (length s / 2) s 0 = v.

(** What std::nth_element promises: the elements are reordered, those before position [n] are
    not greater than the one there and those after it not less. *)
Definition nth_element_contract (nth_element : list Z -> Z -> list Z) : Prop :=
  forall l n, 0 <= n < Z.of_nat (length l) ->
    Permutation l (nth_element l n) /\
    forall i, 0 <= i < Z.of_nat (length l) ->
      (i < n -> nth (Z.to_nat i) (nth_element l n) 0 <= nth (Z.to_nat n) (nth_element l n) 0) /\
      (n < i -> nth (Z.to_nat n) (nth_element l n) 0 <= nth (Z.to_nat i) (nth_element l n) 0).

(** The k x k pixels around (x,y). *)
Definition around (m : mem) (im : image) (x y k : Z) : list Z :=
  map (fun t => pixel m im (x - k / 2 + t mod k) (y - k / 2 + t / k) 0) (map Z.of_nat (seq 0 (Z.to_nat (k * k)))).

(** Distance of at least r from every side of the w x h region. *)
Definition interior (w h r i j : Z) : Prop := r <= i < w - r /\ r <= j < h - r.

Lemma around_window m im x y k : 0 < k -> around m im x y k = window m im (x - k / 2) (y - k / 2) k.
Proof.
  intros Hk. unfold around, window. rewrite !flat_map_concat_map.
  change (map Z.of_nat (seq 0 (Z.to_nat (k * k)))) with (zseq (k * k)).
  set (f := fun i j => pixel m im (x - k / 2 + i) (y - k / 2 + j) 0).
  change (map (fun t => f (t mod k) (t / k)) (zseq (k * k)) = concat (map (fun j => map (fun i => f i j) (zseq k)) (zseq k))).
  assert (A : forall n, 0 <= n -> map (fun t => f (t mod k) (t / k)) (zseq (n * k)) = concat (map (fun j => map (fun i => f i j) (zseq k)) (zseq n))).
  { intros n Hn. pattern n. apply natlike_ind; [reflexivity| |exact Hn].
    intros j Hj IH. unfold Z.succ. rewrite zseq_S by lia. rewrite map_app, concat_app, <- IH. cbn [map concat]. rewrite app_nil_r.
    replace ((j + 1) * k) with (j * k + k) by lia.
    assert (B : forall c, 0 <= c <= k -> map (fun t => f (t mod k) (t / k)) (zseq (j * k + c))
              = map (fun t => f (t mod k) (t / k)) (zseq (j * k)) ++ map (fun i => f i j) (zseq c)).
    { intros c [Hc0 Hc]. revert Hc. pattern c. apply natlike_ind; [| |exact Hc0].
      - intros _. rewrite Z.add_0_r, app_nil_r. reflexivity.
      - intros d Hd IHd Hdk. unfold Z.succ in *. rewrite Z.add_assoc, zseq_S by nia. rewrite map_app, IHd by lia.
        rewrite zseq_S by lia. rewrite map_app, app_assoc. cbn [map].
        destruct (divmod_flat k j d ltac:(lia)) as [-> ->]. reflexivity. }
    apply B. lia. }
  apply A. lia.
Qed.

Theorem C70_median nth_element m inp xi yi out xo yo w h k :
  nth_element_contract nth_element ->
  area m inp xi yi w h -> area m out xo yo w h -> icc inp = 1 -> icc out = 1 ->
  disjoint out xo yo w h inp xi yi w h ->
  3 <= k -> k mod 2 = 1 -> k < w -> k < h ->
  exists val, writes (Median nth_element m inp xi yi out xo yo w h k) m out xo yo w h (fun i j _ => val i j) /\
    forall i j, 0 <= i < w -> 0 <= j < h ->
      (interior w h (k / 2) i j -> middle (around m inp (xi + i) (yi + j) k) (val i j)) /\
      (~ interior w h (k / 2) i j -> val i j = pixel m inp (xi + i) (yi + j) 0).
Proof.
  intros Hn [Wi Ri] [Wo Ro] Gi Go Dj K1 K2 K3 K4.
  exists (median_val m inp xi yi w h k). split.
  - apply Median_ok; auto. intros l n Hl. destruct (Hn l n Hl) as [P1 P2]. split; [exact P1|].
    intros i Hi. apply P2. rewrite (Permutation_length P1). exact Hi.
  - intros i j Hi Hj. unfold interior, median_val. clear - Hi Hj K1 K2 K3 K4.
    destruct ((k / 2 <=? i) && (i <? w - k / 2) && (k / 2 <=? j) && (j <? h - k / 2)) eqn:E.
    + split; [intros _|lia]. rewrite around_window by lia.
      replace (xi + i - k / 2) with (xi + i - k / 2) by reflexivity.
      exists (sort (window m inp (xi + i - k / 2) (yi + j - k / 2) k)). split; [apply sort_perm|].
      split; [apply sort_ordered|]. unfold med.
      pose proof (window_length m inp (xi + i - k / 2) (yi + j - k / 2) k ltac:(lia)) as L.
      rewrite <- (Permutation_length (sort_perm _)). f_equal.
      rewrite <- L. rewrite <- (Nat2Z.inj_div _ 2). apply eq_sym, Nat2Z.id.
    + split; [lia|reflexivity].
Qed.
(** The middle element is unique. *)
Theorem C70_middle_unique l a b : middle l a -> middle l b -> a = b.
Proof.
  intros (s & P1 & O1 & <-) (s' & P2 & O2 & <-).
  destruct l as [|x l].
  { apply Permutation_nil in P1, P2. subst. reflexivity. }
  assert (Q : forall s, Permutation (x :: l) s -> (forall i j, (i <= j < length s)%nat -> nth i s 0 <= nth j s 0) ->
    nth (length s / 2) s 0 = nth (length (x :: l) / 2) (sort (x :: l)) 0).
  { intros s0 P O. pose proof (Permutation_length P) as L. rewrite <- L.
    assert (HL : (length (x :: l) / 2 < length (x :: l))%nat) by (apply Nat.div_lt; simpl; lia).
    revert HL L. generalize (length (x :: l) / 2)%nat as half. intros half HL L.
    pose proof (nth_sorted (x :: l) s0 (Z.of_nat half)) as N. rewrite Nat2Z.id in N. apply N; auto; [lia|].
    intros i Hi. rewrite Nat2Z.id. split; intros Hlt; apply O; lia. }
  rewrite (Q s P1 O1), (Q s' P2 O2). reflexivity.
Qed.
(** 3 x 3 on a region of two images; std::nth_element may sort everything. *)
Lemma sort_contract : nth_element_contract (fun l _ => sort l).
Proof.
  intros l n Hn. split; [apply sort_perm|]. pose proof (Permutation_length (sort_perm l)) as L.
  intros i Hi. split; intros Hlt; apply (sort_ordered l); lia.
Qed.
Example C70_case : exists val,
  writes (Median (fun l _ => sort l) emem (img 1 9 8 1 12) 1 2 (img 2 8 7 1 8) 2 1 5 6 3) emem (img 2 8 7 1 8) 2 1 5 6 (fun i j _ => val i j) /\
  middle (around emem (img 1 9 8 1 12) 3 5 3) (val 2 3) /\ val 0 3 = pixel emem (img 1 9 8 1 12) 1 5 0.
Proof.
  destruct (C70_median (fun l _ => sort l) emem (img 1 9 8 1 12) 1 2 (img 2 8 7 1 8) 2 1 5 6 3) as (val & Hw & Hv);
    try lia; try reflexivity; try apply sort_contract; try solve_area; try solve_disjoint.
  exists val. split; [exact Hw|]. split.
  - apply (Hv 2 3); try lia. unfold interior. lia.
  - apply (Hv 0 3); try lia. unfold interior. lia.
Qed.
Example C70_case_value : match Median (fun l _ => sort l) emem (img 1 9 8 1 12) 1 2 (img 2 8 7 1 8) 2 1 5 6 3 with
  | Ok m => (around emem (img 1 9 8 1 12) 3 5 3, pixel m (img 2 8 7 1 8) 4 4 0)
  | _ => ([], 0) end = ([69; 106; 143; 1; 38; 75; 189; 226; 7], 75).
Proof. vm_compute. reflexivity. Qed.

(** Kernel sizes that are rejected, before anything is written. *)
Theorem C70_rejects nth_element m inp xi yi out xo yo w h k :
  k < 3 \/ k mod 2 = 0 \/ w <= k \/ h <= k \/ icc inp <> 1 \/ icc out <> 1 ->
  rejected (Median nth_element m inp xi yi out xo yo w h k) m.
Proof.
  intros H. unfold rejected, Median. destruct (valid_roi2 _ _ _ _ _ _ _ _); [|reflexivity].
  destruct (is_gray inp && is_gray out) eqn:G; [|reflexivity]. unfold is_gray, GRAY_SCALE in G.
  replace (negb ((k <? 3) || (k mod 2 =? 0) || (w <=? k) || (h <=? k))) with false; [reflexivity|].
  symmetry. apply not_true_iff_false. rewrite negb_true_iff, !orb_false_iff. lia.
Qed.
Theorem C70_whole_image nth_element m inp out k :
  nth_element_contract nth_element ->
  wf m inp -> wf m out -> icc inp = 1 -> icc out = 1 -> iw inp = iw out -> ih inp = ih out ->
  disjoint out 0 0 (iw out) (ih out) inp 0 0 (iw out) (ih out) ->
  3 <= k -> k mod 2 = 1 -> k < iw out -> k < ih out ->
  exists val, writes (Median2 nth_element m inp out k) m out 0 0 (iw out) (ih out) (fun i j _ => val i j) /\
    forall i j, 0 <= i < iw out -> 0 <= j < ih out ->
      (interior (iw out) (ih out) (k / 2) i j -> middle (around m inp i j k) (val i j)) /\
      (~ interior (iw out) (ih out) (k / 2) i j -> val i j = pixel m inp i j 0).
Proof.
  intros Hn Wi Wo Gi Go Ew Eh Dj K1 K2 K3 K4.
  unfold Median2, valid_pair. rewrite !(wf_not_empty m), !(color_ok m) by assumption.
  rewrite Ew, Eh, !Z.eqb_refl. cbn [orb negb].
  destruct (C70_median nth_element m inp 0 0 out 0 0 (iw out) (ih out) k) as (val & Hw & Hv); auto.
  - split; [assumption|]. constructor; lia.
  - split; [assumption|]. constructor; lia.
  - exists val. split; [exact Hw|]. exact Hv.
Qed.
Print Assumptions C70_median.
Print Assumptions C70_middle_unique.
Print Assumptions C70_rejects.
Print Assumptions C70_whole_image.

(** ** C71 *)

(** The two gradients at (x,y); [c] is the weight of the middle row and column. *)
Definition weight (c d : Z) : Z := if d =? 0 then c else 1.
Definition across_x (m : mem) (im : image) (c x y : Z) : Z :=
  zsum 3 (fun t => weight c (t - 1) * (pixel m im (x - 1) (y + t - 1) 0 - pixel m im (x + 1) (y + t - 1) 0)).
Definition across_y (m : mem) (im : image) (c x y : Z) : Z :=
  zsum 3 (fun t => weight c (t - 1) * (pixel m im (x + t - 1) (y - 1) 0 - pixel m im (x + t - 1) (y + 1) 0)).

(** Magnitude of a gradient (a,b), scaled such that the greatest one is 255. *)
Definition strength (c a b : Z) : R := (sqrt (IZR (a * a + b * b)) / (IZR (c + 2) * sqrt 2))%R.

(** [M a b] is the strength to the nearest integer, up to an error of 2^-12. *)
Definition rounds_strength (c : Z) (M : Z -> Z -> Z) : Prop :=
  forall a b, 0 <= a <= 255 * (c + 2) -> 0 <= b <= 255 * (c + 2) ->
    0 <= M a b <= 255 /\ (Rabs (IZR (M a b) - strength c a b) <= / 2 + bpow radix2 (-12))%R.

(** Pixels of the region that become 0: those on the left and upper side of the image, and
    the last column (row) of a region that ends at most one pixel before the right (lower)
    side of the image. *)
Definition zeroed (inp : image) (xi yi w h i j : Z) : bool :=
  (xi + i =? 0) || (yi + j =? 0) || ((i =? w - 1) && (iw inp <=? xi + w + 1)) || ((j =? h - 1) && (ih inp <=? yi + h + 1)).

(** The compiler gives some value when a float does not fit into uint8_t (see
    C71_standard_refuted). *)
Definition some_value (junk : num -> res mem Z) : Prop := forall x, exists v, junk x = Ok v.

(** The weight of the middle determines the filter. *)
Definition gradient_filters (c : Z) := if c =? 1 then Prewitt else Sobel.

Lemma gray_step t im a b : wf t im -> icc im = 1 -> 1 <= a < iw im - 1 -> 1 <= b < ih im - 1 ->
  forall dx dy, -1 <= dx <= 1 -> -1 <= dy <= 1 ->
    @load mem t (padd (px im a b 0) (dy * irs im + dx)) = Ok (pixel t im (a + dx) (b + dy) 0).
Proof.
  intros W G Ha Hb dx dy Hx Hy.
  replace (padd (px im a b 0) (dy * irs im + dx)) with (px im (a + dx) (b + dy) 0)
    by (rewrite !px_gray by assumption; rewrite padd_padd; f_equal; lia).
  apply load_ok. apply px_inb; auto; lia.
Qed.

Ltac one_load L dx dy :=
  let E := fresh in pose proof (L dx dy ltac:(lia) ltac:(lia)) as E.

Lemma prewitt_at_ok t im a b : wf t im -> icc im = 1 -> 1 <= a < iw im - 1 -> 1 <= b < ih im - 1 ->
  prewitt_at t (px im a b 0) (irs im) = Ok (across_x t im 1 a b, across_y t im 1 a b).
Proof.
  intros W G Ha Hb. pose proof (gray_step t im a b W G Ha Hb) as L.
  pose proof (wf_rs _ _ W) as Hr. pose proof (wf_size _ _ W) as Hs. pose proof (wf_rs_pos _ _ W) as Hp. rewrite G in Hr.
  assert (irs im < 2147483648) by (unfold W32 in Hs; nia).
  unfold prewitt_at. rewrite !u32_small by (unfold W32; lia).
  replace (- (irs im + 1)) with (-1 * irs im + -1) by lia. rewrite (L (-1) (-1)) by lia. cbn [bind].
  replace (irs im + 1) with (1 * irs im + 1) by lia. rewrite (L 1 1) by lia. cbn [bind].
  replace (padd (px im a b 0) (-1)) with (padd (px im a b 0) (0 * irs im + -1)) by (f_equal; lia). rewrite (L (-1) 0) by lia. cbn [bind].
  replace (- (irs im - 1)) with (-1 * irs im + 1) by lia. replace (irs im - 1) with (1 * irs im + -1) by lia.
  rewrite (L (-1) 1) by lia. cbn [bind]. rewrite (L 1 (-1)) by lia. cbn [bind].
  replace (padd (px im a b 0) 1) with (padd (px im a b 0) (0 * irs im + 1)) by (f_equal; lia). rewrite (L 1 0) by lia. cbn [bind].
  replace (padd (px im a b 0) (- irs im)) with (padd (px im a b 0) (-1 * irs im + 0)) by (f_equal; lia). rewrite (L 0 (-1)) by lia. cbn [bind].
  replace (padd (px im a b 0) (irs im)) with (padd (px im a b 0) (1 * irs im + 0)) by (f_equal; lia). rewrite (L 0 1) by lia. cbn [bind].
  f_equal. unfold across_x, across_y, zsum. change (Z.to_nat 3) with 3%nat. cbn [sumn].
  change (Z.of_nat 0) with 0. change (Z.of_nat 1) with 1. change (Z.of_nat 2) with 2.
  unfold weight. change (0 - 1 =? 0) with false. change (1 - 1 =? 0) with true. change (2 - 1 =? 0) with false. cbv iota.
  replace (a - 1) with (a + -1) by lia. replace (b - 1) with (b + -1) by lia.
  replace (b + 0 - 1) with (b + -1) by lia. replace (b + 1 - 1) with (b + 0) by lia. replace (b + 2 - 1) with (b + 1) by lia.
  replace (a + 0 - 1) with (a + -1) by lia. replace (a + 1 - 1) with (a + 0) by lia. replace (a + 2 - 1) with (a + 1) by lia.
  f_equal; lia.
Qed.

Lemma sobel_at_ok t im a b : wf t im -> icc im = 1 -> 1 <= a < iw im - 1 -> 1 <= b < ih im - 1 ->
  sobel_at t (px im a b 0) (irs im) = Ok (across_x t im 2 a b, across_y t im 2 a b).
Proof.
  intros W G Ha Hb. pose proof (gray_step t im a b W G Ha Hb) as L.
  pose proof (wf_rs _ _ W) as Hr. pose proof (wf_size _ _ W) as Hs. pose proof (wf_rs_pos _ _ W) as Hp. rewrite G in Hr.
  assert (irs im < 2147483648) by (unfold W32 in Hs; nia).
  unfold sobel_at. rewrite !u32_small by (unfold W32; lia).
  replace (- (irs im + 1)) with (-1 * irs im + -1) by lia. rewrite (L (-1) (-1)) by lia. cbn [bind].
  replace (irs im + 1) with (1 * irs im + 1) by lia. rewrite (L 1 1) by lia. cbn [bind].
  replace (- (irs im - 1)) with (-1 * irs im + 1) by lia. replace (irs im - 1) with (1 * irs im + -1) by lia.
  rewrite (L (-1) 1) by lia. cbn [bind]. rewrite (L 1 (-1)) by lia. cbn [bind].
  replace (padd (px im a b 0) (-1)) with (padd (px im a b 0) (0 * irs im + -1)) by (f_equal; lia). rewrite (L (-1) 0) by lia. cbn [bind].
  replace (padd (px im a b 0) 1) with (padd (px im a b 0) (0 * irs im + 1)) by (f_equal; lia). rewrite (L 1 0) by lia. cbn [bind].
  replace (padd (px im a b 0) (- irs im)) with (padd (px im a b 0) (-1 * irs im + 0)) by (f_equal; lia). rewrite (L 0 (-1)) by lia. cbn [bind].
  replace (padd (px im a b 0) (irs im)) with (padd (px im a b 0) (1 * irs im + 0)) by (f_equal; lia). rewrite (L 0 1) by lia. cbn [bind].
  f_equal. unfold across_x, across_y, zsum. change (Z.to_nat 3) with 3%nat. cbn [sumn].
  change (Z.of_nat 0) with 0. change (Z.of_nat 1) with 1. change (Z.of_nat 2) with 2.
  unfold weight. change (0 - 1 =? 0) with false. change (1 - 1 =? 0) with true. change (2 - 1 =? 0) with false. cbv iota.
  replace (a - 1) with (a + -1) by lia. replace (b - 1) with (b + -1) by lia.
  replace (b + 0 - 1) with (b + -1) by lia. replace (b + 1 - 1) with (b + 0) by lia. replace (b + 2 - 1) with (b + 1) by lia.
  replace (a + 0 - 1) with (a + -1) by lia. replace (a + 1 - 1) with (a + 0) by lia. replace (a + 2 - 1) with (a + 1) by lia.
  f_equal; lia.
Qed.

Lemma across_ext c t m im a b :
  (forall i j, -1 <= i <= 1 -> -1 <= j <= 1 -> pixel t im (a + i) (b + j) 0 = pixel m im (a + i) (b + j) 0) ->
  (across_x t im c a b, across_y t im c a b) = (across_x m im c a b, across_y m im c a b).
Proof.
  intros H. f_equal; apply zsum_ext; intros k Hk.
  - replace (a - 1) with (a + -1) by lia. replace (b + k - 1) with (b + (k - 1)) by lia. rewrite !H by lia. reflexivity.
  - replace (b - 1) with (b + -1) by lia. replace (a + k - 1) with (a + (k - 1)) by lia. rewrite !H by lia. reflexivity.
Qed.

Lemma across_bound c m im a b : c = 1 \/ c = 2 -> bytes m im -> icc im = 1 -> 1 <= a < iw im - 1 -> 1 <= b < ih im - 1 ->
  Z.abs (across_x m im c a b) <= 255 * (c + 2) /\ Z.abs (across_y m im c a b) <= 255 * (c + 2).
Proof.
  intros Hc B G Ha Hb.
  assert (P : forall x y, 0 <= x < iw im -> 0 <= y < ih im -> 0 <= pixel m im x y 0 <= 255).
  { intros x y Hx Hy. specialize (B x y 0). lia. }
  unfold across_x, across_y, zsum. change (Z.to_nat 3) with 3%nat. cbn [sumn].
  change (Z.of_nat 0) with 0. change (Z.of_nat 1) with 1. change (Z.of_nat 2) with 2.
  unfold weight. change (0 - 1 =? 0) with false. change (1 - 1 =? 0) with true. change (2 - 1 =? 0) with false. cbv iota.
  pose proof (P (a - 1) (b + 0 - 1)). pose proof (P (a - 1) (b + 1 - 1)). pose proof (P (a - 1) (b + 2 - 1)).
  pose proof (P (a + 1) (b + 0 - 1)). pose proof (P (a + 1) (b + 1 - 1)). pose proof (P (a + 1) (b + 2 - 1)).
  pose proof (P (a + 0 - 1) (b - 1)). pose proof (P (a + 1 - 1) (b - 1)). pose proof (P (a + 2 - 1) (b - 1)).
  pose proof (P (a + 0 - 1) (b + 1)). pose proof (P (a + 1 - 1) (b + 1)). pose proof (P (a + 2 - 1) (b + 1)).
  destruct Hc as [-> | ->]; lia.
Qed.

Lemma entry_some junk n i j : some_value junk -> exists v, entry junk n i j = Ok v.
Proof.
  intros H. unfold entry, cast_to. destruct (dtrunc _) as [z|]; [|apply H]. destruct (_ && _); [eauto|apply H].
Qed.

Theorem C71_gradient_filters c junk m inp xi yi out xo yo w h :
  c = 1 \/ c = 2 -> some_value junk ->
  area m inp xi yi w h -> area m out xo yo w h -> icc inp = 1 -> icc out = 1 -> bytes m inp ->
  disjoint out xo yo w h inp 0 0 (iw inp) (ih inp) -> 3 <= w -> 3 <= h ->
  exists M, rounds_strength c M /\
    writes (gradient_filters c junk m inp xi yi out xo yo w h) m out xo yo w h
      (fun i j _ => if zeroed inp xi yi w h i j then 0
                    else M (Z.abs (across_x m inp c (xi + i) (yi + j))) (Z.abs (across_y m inp c (xi + i) (yi + j)))).
Proof.
  intros Hc Hj [Wi Ri] [Wo Ro] Gi Go B Dj W3 H3.
  destruct (filter_kernel_ok junk (c + 2) ltac:(lia) (fun i j => entry_some junk (c + 2) i j Hj)) as (T & ET & HT).
  exists T. split.
  - intros a b Ha Hb. destruct (entry_near junk (c + 2) a b) as (z & Ez & Z1 & Z2); try lia.
    rewrite HT in Ez by lia. injection Ez as ->. split; [exact Z1|exact Z2].
  - assert (HG : forall a b, 1 <= a < iw inp - 1 -> 1 <= b < ih inp - 1 ->
       Z.abs (across_x m inp c a b) < 256 * (c + 2) /\ Z.abs (across_y m inp c a b) < 256 * (c + 2)).
    { intros a b Ha Hb. pose proof (across_bound c m inp a b Hc B Gi Ha Hb). lia. }
    destruct Hc as [-> | ->].
    + apply (gradient_ok 3 prewitt_at (fun t im a b => (across_x t im 1 a b, across_y t im 1 a b)) prewitt_at_ok (across_ext 1)); auto.
    + apply (gradient_ok 4 sobel_at (fun t im a b => (across_x t im 2 a b, across_y t im 2 a b)) sobel_at_ok (across_ext 2)); auto.
Qed.
(** An inner region: every pixel gets the strength of its gradients. *)
Example C71_case : exists M, rounds_strength 2 M /\
  writes (gradient_filters 2 (fun _ => Ok 7) emem (img 1 9 8 1 12) 1 2 (img 2 8 7 1 8) 2 1 5 4) emem (img 2 8 7 1 8) 2 1 5 4
    (fun i j _ => M (Z.abs (across_x emem (img 1 9 8 1 12) 2 (1 + i) (2 + j))) (Z.abs (across_y emem (img 1 9 8 1 12) 2 (1 + i) (2 + j)))).
Proof.
  destruct (C71_gradient_filters 2 (fun _ => Ok 7) emem (img 1 9 8 1 12) 1 2 (img 2 8 7 1 8) 2 1 5 4) as (M & HM & Hw);
    auto; try lia; try solve_area; try apply emem_bytes; try solve_disjoint.
  { intros x. exists 7. reflexivity. }
  exists M. split; [exact HM|]. eapply writes_ext; [exact Hw|].
  intros i j k (Hi & Hj & Hk). cbv beta. replace (zeroed (img 1 9 8 1 12) 1 2 5 4 i j) with false; [reflexivity|].
  symmetry. unfold zeroed. cbn [iw ih img]. lia.
Qed.
Example C71_case_gradients :
  (across_x emem (img 1 9 8 1 12) 2 1 2, across_y emem (img 1 9 8 1 12) 2 1 2, across_x emem (img 1 9 8 1 12) 1 1 2) = (-40, 288, 34).
Proof. vm_compute. reflexivity. Qed.

Theorem C71_rejects c junk m inp xi yi out xo yo w h : w < 3 \/ h < 3 \/ icc inp <> 1 \/ icc out <> 1 ->
  rejected (gradient_filters c junk m inp xi yi out xo yo w h) m.
Proof.
  intros H. unfold gradient_filters, rejected.
  assert (A : forall n at_point, gradient_filter n at_point junk m inp xi yi out xo yo w h = Throw m).
  { intros n at_point. unfold gradient_filter. destruct (valid_roi2 _ _ _ _ _ _ _ _); [|reflexivity].
    destruct (is_gray inp && is_gray out) eqn:G; [|reflexivity]. unfold is_gray, GRAY_SCALE in G.
    replace (negb ((w <? 3) || (h <? 3))) with false; [reflexivity|]. lia. }
  destruct (c =? 1); apply A.
Qed.

(** The table has entries no gradient leads to, from which 256 does not fit into uint8_t:
    read strictly, making the table is undefined behaviour. *)
Definition C71_claim : Prop := forall c m inp xi yi out xo yo w h,
  c = 1 \/ c = 2 ->
  area m inp xi yi w h -> area m out xo yo w h -> icc inp = 1 -> icc out = 1 -> bytes m inp ->
  disjoint out xo yo w h inp 0 0 (iw inp) (ih inp) -> 3 <= w -> 3 <= h ->
  gradient_filters c undefined m inp xi yi out xo yo w h <> UB.

Lemma iterM_ub {S} (g : Z -> S -> res mem S) k : forall n a, a <= k < a + Z.of_nat n ->
  (forall i s, a <= i < k -> g i s = UB \/ exists s', g i s = Ok s') -> (forall s, g k s = UB) ->
  forall s, iterM n a g s = UB.
Proof.
  induction n as [|n IH]; intros a Ha H1 H2 s; [lia|]. cbn [iterM].
  destruct (Z.eq_dec a k) as [->|N]; [rewrite H2; reflexivity|].
  destruct (H1 a s ltac:(lia)) as [-> | (s' & ->)]; [reflexivity|]. cbn [bind]. apply IH; auto; try lia.
  intros i s0 Hi. apply H1. lia.
Qed.
Lemma iterM_ok_or_ub {S} (g : Z -> S -> res mem S) : forall n a,
  (forall i s, a <= i < a + Z.of_nat n -> g i s = UB \/ exists s', g i s = Ok s') ->
  forall s, iterM n a g s = UB \/ exists s', iterM n a g s = Ok s'.
Proof.
  induction n as [|n IH]; intros a H s; cbn [iterM]; [eauto|].
  destruct (H a s ltac:(lia)) as [-> | (s' & ->)]; [left; reflexivity|]. cbn [bind]. apply IH.
  intros i s0 Hi. apply H. lia.
Qed.
Lemma table_undefined n : n = 3 \/ n = 4 -> filter_kernel undefined n = UB.
Proof.
  intros Hn. set (k := 256 * n - 1).
  assert (U : @cast_to mem 256 undefined (magnitude n k k) = UB)
    by (destruct Hn as [-> | ->]; vm_compute; reflexivity).
  assert (O : forall x, @cast_to mem 256 undefined x = UB \/ exists v, @cast_to mem 256 undefined x = Ok v).
  { intros x. unfold cast_to, undefined. destruct (dtrunc x) as [z|]; [|auto]. destruct (_ && _); eauto. }
  unfold filter_kernel. apply (iterM_ub _ k); [subst k; lia| |].
  - intros i t Hi. apply iterM_ok_or_ub. intros j u Hj. destruct (O (magnitude n i j)) as [-> | (v & ->)]; cbn [bind]; eauto.
  - intros t. apply (iterM_ub _ k); [subst k; lia| |].
    + intros j u Hj. destruct (O (magnitude n k j)) as [-> | (v & ->)]; cbn [bind]; eauto.
    + intros u. rewrite U. reflexivity.
Qed.

Lemma gradient_undefined n at_point m inp xi yi out xo yo w h : n = 3 \/ n = 4 ->
  valid_roi2 inp xi yi out xo yo w h = true -> icc inp = 1 -> icc out = 1 -> 3 <= w -> 3 <= h -> 0 < yi ->
  gradient_filter n at_point undefined m inp xi yi out xo yo w h = UB.
Proof.
  intros Hn V Gi Go Hw Hh Hy. unfold gradient_filter. rewrite V. unfold is_gray, GRAY_SCALE. rewrite Gi, Go, !Z.eqb_refl.
  replace (negb ((w <? 3) || (h <? 3))) with true by lia. replace (0 <? yi) with true by lia.
  rewrite (table_undefined n Hn). reflexivity.
Qed.
Theorem C71_standard_refuted : ~ C71_claim.
Proof.
  intros C.
  assert (N : gradient_filters 1 undefined emem (img 1 9 8 1 12) 1 2 (img 2 8 7 1 8) 2 1 5 4 <> UB).
  { apply C; auto; [solve_area|solve_area|apply emem_bytes|solve_disjoint|lia|lia]. }
  apply N. apply (gradient_undefined 3 prewitt_at); auto; lia.
Qed.
Theorem C71_whole_image c junk m inp out :
  c = 1 \/ c = 2 -> some_value junk -> wf m inp -> wf m out -> icc inp = 1 -> icc out = 1 -> bytes m inp ->
  iw inp = iw out -> ih inp = ih out -> disjoint out 0 0 (iw out) (ih out) inp 0 0 (iw out) (ih out) ->
  3 <= iw out -> 3 <= ih out ->
  exists M, rounds_strength c M /\
    writes ((if c =? 1 then Prewitt2 else Sobel2) junk m inp out) m out 0 0 (iw out) (ih out)
      (fun i j _ => if (i =? 0) || (j =? 0) || (i =? iw out - 1) || (j =? ih out - 1) then 0
                    else M (Z.abs (across_x m inp c i j)) (Z.abs (across_y m inp c i j))).
Proof.
  intros Hc Hj Wi Wo Gi Go B Ew Eh Dj W3 H3.
  assert (E : (if c =? 1 then Prewitt2 else Sobel2) junk m inp out = gradient_filters c junk m inp 0 0 out 0 0 (iw out) (ih out)).
  { unfold gradient_filters. destruct (c =? 1); unfold Prewitt2, Sobel2, valid_pair;
      rewrite !(wf_not_empty m), !(color_ok m) by assumption; rewrite Ew, Eh, !Z.eqb_refl; reflexivity. }
  rewrite E.
  destruct (C71_gradient_filters c junk m inp 0 0 out 0 0 (iw out) (ih out)) as (M & HM & Hw); auto.
  - split; [assumption|]. constructor; lia.
  - split; [assumption|]. constructor; lia.
  - rewrite Ew, Eh. exact Dj.
  - exists M. split; [exact HM|]. eapply writes_ext; [exact Hw|]. intros i j k (Hi & Hjj & Hk). cbv beta.
    replace (zeroed inp 0 0 (iw out) (ih out) i j) with ((i =? 0) || (j =? 0) || (i =? iw out - 1) || (j =? ih out - 1)).
    + reflexivity.
    + unfold zeroed. rewrite Ew, Eh. clear. lia.
Qed.
(** 9 x 9 of both images. *)
Example C71_case_whole : let inp := img 1 9 9 1 12 in let out := img 2 9 9 1 9 in exists M, rounds_strength 1 M /\
  writes (Prewitt2 (fun _ => Ok 7) emem inp out) emem out 0 0 (iw out) (ih out)
      (fun i j _ => if (i =? 0) || (j =? 0) || (i =? iw out - 1) || (j =? ih out - 1) then 0
                    else M (Z.abs (across_x emem inp 1 i j)) (Z.abs (across_y emem inp 1 i j))).
Proof.
  assert (J : some_value (fun _ => Ok 7)) by (intros x; exists 7; reflexivity).
  assert (Wi : wf emem (img 1 9 9 1 12)) by solve_wf.
  assert (Wo : wf emem (img 2 9 9 1 9)) by solve_wf.
  assert (Dj : disjoint (img 2 9 9 1 9) 0 0 9 9 (img 1 9 9 1 12) 0 0 9 9) by solve_disjoint.
  assert (H3 : 3 <= 9) by lia.
  intros inp out. replace Prewitt2 with (if 1 =? 1 then Prewitt2 else Sobel2) by reflexivity.
  exact (C71_whole_image 1 _ _ inp out (or_introl eq_refl) J Wi Wo eq_refl eq_refl (emem_bytes _) eq_refl eq_refl Dj H3 H3).
Qed.
Print Assumptions C71_gradient_filters.
Print Assumptions C71_whole_image.
Print Assumptions C71_rejects.
Print Assumptions C71_standard_refuted.

(** ** C92 *)

(** Every pixel that has all eight neighbours in the image gets the strength of its gradients. *)
Definition C92_claim : Prop := forall c junk m inp xi yi out xo yo w h,
  c = 1 \/ c = 2 -> some_value junk ->
  area m inp xi yi w h -> area m out xo yo w h -> icc inp = 1 -> icc out = 1 -> bytes m inp ->
  disjoint out xo yo w h inp 0 0 (iw inp) (ih inp) -> 3 <= w -> 3 <= h ->
  exists M m', rounds_strength c M /\ gradient_filters c junk m inp xi yi out xo yo w h = Ok m' /\
    forall i j, 0 <= i < w -> 0 <= j < h -> 0 < xi + i < iw inp - 1 -> 0 < yi + j < ih inp - 1 ->
      pixel m' out (xo + i) (yo + j) 0
      = M (Z.abs (across_x m inp c (xi + i) (yi + j))) (Z.abs (across_y m inp c (xi + i) (yi + j))).

(** 4 x 3 image, all columns white but the last; region 3 x 3: pixel (2,1) has the gradients
    of an edge but becomes 0. *)
Definition edge_mem : mem := fun b => mkBlock 4096 (fun o => if o mod 4 =? 3 then 0 else 255).
Theorem C92_claim_refuted : ~ C92_claim.
Proof.
  intros C.
  assert (Bm : bytes edge_mem (img 1 4 3 1 4)).
  { intros x y c _ _ _. unfold pixel, get, edge_mem. cbn [bget]. destruct (_ =? 3); lia. }
  assert (J : some_value (fun _ => Ok 0)) by (intros x; exists 0; reflexivity).
  assert (Ai : area edge_mem (img 1 4 3 1 4) 0 0 3 3) by solve_area.
  assert (Ao : area edge_mem (img 2 3 3 1 3) 0 0 3 3) by solve_area.
  assert (Dj : disjoint (img 2 3 3 1 3) 0 0 3 3 (img 1 4 3 1 4) 0 0 4 3) by solve_disjoint.
  destruct (C 1 _ _ _ _ _ _ _ _ _ _ (or_introl eq_refl) J Ai Ao eq_refl eq_refl Bm Dj (Z.le_refl 3) (Z.le_refl 3))
    as (M & m' & HM & E & V).
  destruct (C71_gradient_filters 1 _ _ _ _ _ _ _ _ _ _ (or_introl eq_refl) J Ai Ao eq_refl eq_refl Bm Dj (Z.le_refl 3) (Z.le_refl 3))
    as (M2 & _ & m2 & E2 & V2 & _).
  rewrite E in E2. injection E2 as <-.
  specialize (V 2 1 ltac:(lia) ltac:(lia) ltac:(cbn; lia) ltac:(cbn; lia)).
  specialize (V2 2 1 0 ltac:(unfold inside; cbn; lia)). cbv beta in V2.
  rewrite V in V2. replace (zeroed (img 1 4 3 1 4) 0 0 3 3 2 1) with true in V2 by reflexivity.
  replace (Z.abs (across_x edge_mem (img 1 4 3 1 4) 1 (0 + 2) (0 + 1))) with 765 in V2 by reflexivity.
  replace (Z.abs (across_y edge_mem (img 1 4 3 1 4) 1 (0 + 2) (0 + 1))) with 0 in V2 by reflexivity.
  destruct (HM 765 0 ltac:(lia) ltac:(lia)) as [_ Q]. rewrite V2 in Q. unfold strength in Q.
  replace (IZR (765 * 765 + 0 * 0)) with (765 * 765)%R in Q by (rewrite <- mult_IZR; reflexivity).
  rewrite sqrt_square in Q by lra. replace (IZR (1 + 2)) with 3%R in Q by reflexivity.
  apply Rabs_le_inv in Q. change (bpow radix2 (-12)) with (/ 4096)%R in Q.
  pose proof sqrt2_bounds as [S1 S2].
  assert (K : (100 <= 765 / (3 * sqrt 2))%R).
  { apply Rmult_le_reg_r with (3 * sqrt 2)%R; [lra|]. unfold Rdiv. rewrite Rmult_assoc, Rinv_l by lra. lra. }
  lra.
Qed.
(** C71_gradient_filters says which pixels are zeroed instead. *)
Print Assumptions C92_claim_refuted.

(** ** C04: rejected arguments of these functions *)

Theorem C04_filters m a xa ya b xb yb w h : args_u32 a xa ya w h -> args_u32 b xb yb w h ->
  ~ (valid_arg a xa ya w h /\ valid_arg b xb yb w h) ->
  (forall nth_element k, rejected (Median nth_element m a xa ya b xb yb w h k) m) /\
  (forall c junk, rejected (gradient_filters c junk m a xa ya b xb yb w h) m).
Proof.
  intros Ua Ub V. pose proof (bad2 _ _ _ _ _ _ _ _ Ua Ub V) as E.
  unfold rejected, gradient_filters. split.
  - intros ne k. unfold Median. rewrite E. reflexivity.
  - intros c junk. destruct (c =? 1); unfold Prewitt, Sobel, gradient_filter; rewrite E; reflexivity.
Qed.
Print Assumptions C04_filters.
