(** Properties of blob detection: C60, C61, C88, C89. *)
From Coq Require Import ZArith List Bool Lia Sorted Permutation Floats.SpecFloat.
From Verif Require Import Base Image Spec BaseProofs ImgFun ImgLemmas ImgProofs ReduceProofs PropsA Double.
From Verif Require Import Blob BlobProofs BlobFilter.
Import ListNotations.
Open Scope Z_scope.
Ltac Zify.zify_post_hook ::= Z.div_mod_to_equations.

(** ** C60 *)

(** The vocabulary is in BlobProofs: [bright m im x y w h t p], pixel [p] of the region is at or
    above the threshold; [adjacent], 8-neighbours; [linked S p q], a chain of steps to
    neighbours inside [S] leads from [p] to [q]; [reads_before], order of rows, then columns. *)

(** The points of the blobs are the 8-connected components of the bright pixels of the region. *)
Definition components (white : Z * Z -> Prop) (l : list blob) : Prop :=
  (* every bright pixel is a point of a blob, and a point of one blob only *)
  (forall p, white p <-> exists b, In b l /\ In p (bpoints b)) /\
  NoDup (concat (map bpoints l)) /\
  (* no blob is empty; two pixels share a blob exactly when they are linked *)
  (forall b, In b l -> bpoints b <> [] /\
     forall p, In p (bpoints b) -> forall q, In q (bpoints b) <-> linked white p q).

(** The edge of a blob: the points with a neighbour that is not bright (or not in the region).
    The contour: the edge points linked along the edge with the first point of the blob. *)
Definition outlines (white : Z * Z -> Prop) (b : blob) : Prop :=
  NoDup (bedges b) /\
  (forall p, In p (bedges b) <-> In p (bpoints b) /\ exists q, adjacent p q /\ ~ white q) /\
  NoDup (bcontour b) /\
  exists s, In s (bpoints b) /\ (forall p, In p (bpoints b) -> reads_before s p) /\ In s (bedges b) /\
    forall p, In p (bcontour b) <-> linked (fun q => In q (bedges b)) s p.

Definition C60_claim : Prop := forall lm m im x y w h t,
  area m im x y w h -> icc im = 1 -> bytes m im -> 0 <= t < 256 ->
  exists l, find lm m im x y w h no_limits t = Ok l /\
    components (bright m im x y w h t) (map iblob l) /\
    forall i, In i l -> outlines (bright m im x y w h t) (iblob i).

(** Proved for every region with (w + 2) * (h + 1) < 2^32. *)
Theorem C60_components_partial lm m im x y w h t :
  area m im x y w h -> icc im = 1 -> (w + 2) * (h + 1) < W32 ->
  exists l, find lm m im x y w h no_limits t = Ok l /\
    components (bright m im x y w h t) (map iblob l) /\
    forall i, In i l -> outlines (bright m im x y w h t) (iblob i).
Proof.
  intros A C Hsz. destruct (find_blobs m im x y w h t A C Hsz) as (mp & mp' & l & Hm & Hc & H1 & H2 & H3).
  exists (map fresh l). split; [|split].
  - unfold find. rewrite (valid_roi_ok m im x y w h) by apply A.
    unfold is_gray, GRAY_SCALE. rewrite C. cbn [Z.eqb Pos.eqb]. cbv iota.
    change (verify_all no_limits) with true. cbv iota.
    rewrite Hm. cbn [bind]. rewrite Hc. cbn [bind snd]. apply select_none.
  - rewrite map_map. cbn [fresh iblob]. rewrite map_id. split; [|split; [exact H2|]].
    + intros p. rewrite <- H3, in_concat. split.
      * intros (ps & Hps & Hp). apply in_map_iff in Hps. destruct Hps as (b & <- & Hb). eauto.
      * intros (b & Hb & Hp). exists (bpoints b). split; auto. apply in_map, Hb.
    + intros b Hb. destruct (H1 b Hb) as (s & K). split.
      * intros E. assert (Hs : In s (bpoints b)) by (apply (co_points _ _ _ K); constructor). rewrite E in Hs. exact Hs.
      * intros p Hp q. rewrite (co_points _ _ _ K) in Hp |- *. pose proof (co_seed _ _ _ K) as Hs. split.
        -- intros Hq. eapply linked_trans; [|exact Hq]. apply linked_sym; auto.
        -- intros Hq. eapply linked_trans; eauto.
  - intros i Hi. apply in_map_iff in Hi. destruct Hi as (b & <- & Hb). cbn [fresh iblob].
    destruct (H1 b Hb) as (s & K). destruct K as [K1 K2 K3 K4 K5 K6 K7 K8]. split; [exact K5|]. split; [exact K6|].
    split; [exact K7|]. exists s. assert (Hs : In s (bpoints b)) by (apply K4; constructor).
    split; [exact Hs|]. split; [exact K2|]. split; [|exact K8].
    apply K6. split; [exact Hs|]. exists (fst s - 1, snd s). split.
    + split; [|cbn; lia]. destruct s as (a, c). cbn. intros X. injection X. lia.
    + intros Hw. assert (Hl : In (fst s - 1, snd s) (bpoints b)).
      { apply K4. apply linked_step with s; [constructor| |exact Hw]. split; [|cbn; lia].
        destruct s as (a, c). cbn. intros X. injection X. lia. }
      apply K2 in Hl. unfold reads_before in Hl. cbn in Hl. lia.
Qed.

(** A 5 x 4 picture with three components, one of them a ring; region inside a larger image. *)
Definition picture : mem := fun b => mkBlock 64 (fun o => nth (Z.to_nat o)
  [0;0;0;0;0;0;0;0;
   0;9;9;9;0;0;0;0;
   0;9;0;9;0;9;0;0;
   0;9;9;9;0;0;0;0;
   0;0;0;0;0;9;7;0] 0).
Definition zero_libm : libm := mkLibm (dofZ 3) (fun d => d) (fun _ => dofZ 1) (fun a _ => a).
Example C60_case : match find zero_libm picture (img 1 7 5 1 8) 1 1 5 4 no_limits 8 with
  | Ok l => map (fun i => bpoints (iblob i)) l
  | _ => [] end =
  [[(1, 1); (2, 1); (1, 2); (3, 1); (3, 2); (1, 3); (2, 3); (3, 3)]; [(5, 2)]; [(5, 4)]].
Proof. vm_compute. reflexivity. Qed.
Example C60_case_hypotheses : area picture (img 1 7 5 1 8) 1 1 5 4 /\ icc (img 1 7 5 1 8) = 1 /\ (5 + 2) * (4 + 1) < W32.
Proof. split; [solve_area|split; reflexivity]. Qed.
Example C60_case_applied : exists l, find zero_libm picture (img 1 7 5 1 8) 1 1 5 4 no_limits 8 = Ok l /\
  components (bright picture (img 1 7 5 1 8) 1 1 5 4 8) (map iblob l).
Proof.
  destruct (C60_components_partial zero_libm picture (img 1 7 5 1 8) 1 1 5 4 8) as (l & H1 & H2 & _);
    [solve_area|reflexivity|reflexivity|]. eauto.
Qed.

(** Beyond that the end of the scan, (w + 2) * (h + 1) computed in uint32_t, is wrong.  A black
    region, one pixel wide and 1431655765 high: the end is byte 2 of the map, the scan starts at
    byte 3 and does not stop before the end of the map. *)
Definition tall : image := img 1 1 1431655765 1 1.
Definition tall_mem : mem := fun b => mkBlock 1431655765 (fun o => 0).
Lemma mark_dark m im x y w h t mp : area m im x y w h -> icc im = 1 ->
  (forall i j, 0 <= i < w -> 0 <= j < h -> pixel m im (x + i) (y + j) 0 < t) -> mark m im x y w h t mp = Ok mp.
Proof.
  intros (W & R) C Hd. pose proof (roi_rows_small m im x y w h W R) as Hsm.
  assert (Hw : 0 < w) by apply R. assert (Hh : 0 < h) by apply R. pose proof (wf_rs_pos _ _ W) as Hrs.
  pose proof (wf_bounds _ _ W) as (B1 & B2 & B3 & B4).
  unfold mark. cbv zeta. rewrite (row_ptr_origin m im x y w h 1) by (auto; lia). unfold c0.
  rewrite (walk2_plain w); try reflexivity; try lia.
  - destruct (@iterM2_inv mem mem (fun _ _ s => s = mp)
      (fun j i s => do v <- load m (nth 0 (cells (zip3 [origin im x y 1; map_ptr (u32 (w + 2) + 1)] [irs im; u32 (w + 2)] [1; 1]) j i) nullp);
         if t <=? v then store s (c1 (cells (zip3 [origin im x y 1; map_ptr (u32 (w + 2) + 1)] [irs im; u32 (w + 2)] [1; 1]) j i)) NOT_IN_USE else Ok s)
      h w mp) as (s & Es & ->); try lia; auto.
    intros j i s Hj Hi ->. exists mp. split; [|reflexivity].
    replace (nth 0 (cells (zip3 [origin im x y 1; map_ptr (u32 (w + 2) + 1)] [irs im; u32 (w + 2)] [1; 1]) j i) nullp)
      with (padd (origin im x y (icc im)) (j * irs im + i)) by (rewrite C; cbn; rewrite !Z.mul_1_r; reflexivity).
    rewrite load_ok by (apply (cell_inb m im x y w h); auto; lia). cbn [bind].
    replace (get m (padd (origin im x y (icc im)) (j * irs im + i))) with (pixel m im (x + i) (y + j) 0).
    2: { unfold pixel. rewrite px_origin, C. do 2 f_equal. lia. }
    destruct (Z.leb_spec t (pixel m im (x + i) (y + j) 0)); [|reflexivity]. pose proof (Hd i j Hi Hj). lia.
Qed.
(** Scanning an empty map from beyond the end runs out of it. *)
Lemma scan_out w h x y n : forall o f, 0 <= o -> o + Z.of_nat n = u32 (h + 2) * u32 (w + 2) -> (n < f)%nat ->
  u32 (u32 (w + 2) * u32 (h + 1)) < o ->
  loop f (fun s : list ptr * (mem * list blob) => negb (ptr_eqb (nth 0 (fst s) nullp) (map_ptr (u32 (u32 (w + 2) * u32 (h + 1))))))
    (fun s => do t' <- (let '(mp, found) := snd s in
       do v <- load mp (c0 (fst s));
       if v =? NOT_IN_USE then
         do r <- extract w h (u32 (w + 2)) x y (snd (c0 (fst s))) mp;
         Ok (fst r, found ++ [snd r])
       else Ok (mp, found)); Ok (advance (fst s) [1], t'))
    ([map_ptr o], (new_map w h, [])) = UB.
Proof.
  induction n as [|n IH]; intros o f Ho Hn Hf He; (destruct f as [|f]; [lia|]); cbn [loop fst snd nth].
  - replace (ptr_eqb (map_ptr o) _) with false by (unfold ptr_eqb, map_ptr; cbn; lia). cbn [negb].
    unfold c0. cbn [nth]. unfold load at 1.
    replace (inb (new_map w h) (map_ptr o)) with false; [reflexivity|].
    unfold inb, map_ptr, len, new_map. cbn. lia.
  - replace (ptr_eqb (map_ptr o) _) with false by (unfold ptr_eqb, map_ptr; cbn; lia). cbn [negb].
    unfold c0. cbn [nth]. rewrite load_ok.
    2: { apply inb_iff. unfold map_ptr, len, new_map. cbn. lia. }
    cbn [bind]. unfold get at 1, new_map at 1, map_ptr at 1. cbn [fst snd Z.eqb bget]. unfold EMPTY, NOT_IN_USE. cbn [Z.eqb]. cbv iota. cbn [bind].
    change (advance [map_ptr o] [1]) with [map_ptr (o + 1)]. apply IH; lia.
Qed.
Lemma collect_out w h x y : 0 <= w -> 0 <= h -> w + 2 < W32 -> h + 2 < W32 -> u32 ((w + 2) * (h + 1)) < w + 2 ->
  collect w h x y (new_map w h) = UB.
Proof.
  intros Hw Hh Hw2 Hh2 Hov. unfold collect. cbv zeta. unfold walk.
  rewrite (scan_out w h x y (Z.to_nat (u32 (h + 2) * u32 (w + 2) - u32 (w + 2)))); [reflexivity| | | |];
    rewrite ?(u32_small (w + 2)), ?(u32_small (h + 2)), ?(u32_small (h + 1)) by lia; try lia.
  all: unfold fuel_of; nia.
Qed.
Lemma dark_out lm m im x y w h t : area m im x y w h -> icc im = 1 ->
  (forall i j, 0 <= i < w -> 0 <= j < h -> pixel m im (x + i) (y + j) 0 < t) ->
  w + 2 < W32 -> h + 2 < W32 -> u32 ((w + 2) * (h + 1)) < w + 2 -> find lm m im x y w h no_limits t = UB.
Proof.
  intros A C Hd Hw2 Hh2 Hov. unfold find. rewrite (valid_roi_ok m im x y w h) by apply A.
  unfold is_gray, GRAY_SCALE. rewrite C. cbn [Z.eqb Pos.eqb]. cbv iota.
  change (verify_all no_limits) with true. cbv iota. rewrite mark_dark by assumption. cbn [bind].
  destruct A as (W & R). rewrite collect_out; auto; apply Z.lt_le_incl, R.
Qed.
Theorem C60_claim_refuted : ~ C60_claim.
Proof.
  intros H. assert (A : area tall_mem tall 0 0 1 1431655765) by (clear; unfold tall; solve_area).
  destruct (H zero_libm tall_mem tall 0 0 1 1431655765 1) as (l & E & _); auto.
  - intros x y c _ _ _. unfold pixel, get, tall_mem. cbn [bget]. lia.
  - lia.
  - clear H.
    assert (D : find zero_libm tall_mem tall 0 0 1 1431655765 no_limits 1 = UB).
    { apply dark_out.
      - exact A.
      - reflexivity.
      - intros i j _ _. unfold pixel, get, tall_mem. cbn [bget]. lia.
      - reflexivity.
      - reflexivity.
      - reflexivity. }
    pose proof (eq_trans (eq_sym D) E) as X. discriminate X.
Qed.
Theorem C60_rejects lm m im x y w h p t : args_u32 im x y w h ->
  ~ valid_arg im x y w h \/ icc im <> 1 -> rejected (find lm m im x y w h p t) m.
Proof.
  intros U Hb. unfold rejected, find.
  destruct (valid_roi im x y w h) eqn:E; [|reflexivity]. destruct Hb as [Hb|Hb].
  - rewrite (args_bad _ _ _ _ _ U Hb) in E. discriminate.
  - unfold is_gray, GRAY_SCALE. destruct (Z.eqb_spec (icc im) 1); [contradiction|reflexivity].
Qed.
Print Assumptions C60_components_partial.
Print Assumptions C60_claim_refuted.
Print Assumptions C60_rejects.

(** ** C61 *)

(** Every enabled limit of [p] is met; the measurements are compared as numbers. *)
Definition within_limits (lm : libm) (p : parameters) (b : blob) : Prop :=
  (set (pcircularity p) -> exists v, blob_circularity lm b = Ok v /\ in_D (pcircularity p) v) /\
  (set (pelongation p) -> exists v, blob_elongation lm b = Ok v /\ in_D (pelongation p) v) /\
  (set (pheight p) -> in_Z (pheight p) (blob_height b)) /\
  (set (plength p) -> exists v, blob_length b = Ok v /\ in_D (plength p) v) /\
  (set (psize p) -> in_Z (psize p) (blob_size b)) /\
  (set (pwidth p) -> in_Z (pwidth p) (blob_width b)).

(** No limit and no measurement of the type double is NaN. *)
Definition no_nan (lm : libm) (p : parameters) (b : blob) : Prop :=
  numbers (pcircularity p) /\ numbers (pelongation p) /\ numbers (plength p) /\
  (forall v, blob_circularity lm b = Ok v -> number v) /\
  (forall v, blob_elongation lm b = Ok v -> number v) /\
  (forall v, blob_length b = Ok v -> number v).

(** A range of [p] is empty: both limits set, the smaller above the larger. *)
Definition empty_range (p : parameters) : Prop :=
  (exists a b, lmin (pcircularity p) = Some a /\ lmax (pcircularity p) = Some b /\ dlt b a = true) \/
  (exists a b, lmin (pelongation p) = Some a /\ lmax (pelongation p) = Some b /\ dlt b a = true) \/
  (exists a b, lmin (pheight p) = Some a /\ lmax (pheight p) = Some b /\ b < a) \/
  (exists a b, lmin (plength p) = Some a /\ lmax (plength p) = Some b /\ dlt b a = true) \/
  (exists a b, lmin (psize p) = Some a /\ lmax (psize p) = Some b /\ b < a) \/
  (exists a b, lmin (pwidth p) = Some a /\ lmax (pwidth p) = Some b /\ b < a).

Lemma verify_D l : verify dlt l = false <-> exists a b, lmin l = Some a /\ lmax l = Some b /\ dlt b a = true.
Proof.
  unfold verify. destruct (lmin l) as [a|], (lmax l) as [b|]; split; try discriminate;
    try (intros (? & ? & H1 & H2 & _); discriminate).
  - intros H. apply negb_false_iff in H. eauto.
  - intros (a' & b' & H1 & H2 & H). injection H1 as <-. injection H2 as <-. rewrite H. reflexivity.
Qed.
Lemma verify_Z l : verify Z.ltb l = false <-> exists a b, lmin l = Some a /\ lmax l = Some b /\ b < a.
Proof.
  unfold verify. destruct (lmin l) as [a|], (lmax l) as [b|]; split; try discriminate;
    try (intros (? & ? & H1 & H2 & _); discriminate).
  - intros H. apply negb_false_iff in H. exists a, b. repeat split. lia.
  - intros (a' & b' & H1 & H2 & H). injection H1 as <-. injection H2 as <-. apply negb_false_iff. lia.
Qed.
Lemma verify_spec p : verify_all p = false <-> empty_range p.
Proof.
  unfold verify_all, empty_range. rewrite !andb_false_iff, !verify_D, !verify_Z. tauto.
Qed.
Theorem C61_empty_range_rejected lm m im x y w h p t : empty_range p -> rejected (find lm m im x y w h p t) m.
Proof.
  intros H. apply verify_spec in H. unfold rejected, find. rewrite H.
  destruct (valid_roi im x y w h), (is_gray im); reflexivity.
Qed.
Example C61_empty_range_case : empty_range (mkParameters (mkLimits None None) (mkLimits None None)
  (mkLimits (Some 5) (Some 4)) (mkLimits None None) (mkLimits None None) (mkLimits None None)).
Proof. do 5 right. exists 5, 4. repeat split. Qed.

(** The contour of a blob lies in the region. *)
Lemma contour_bright white b : outlines white b -> forall p, In p (bcontour b) -> In p (bpoints b).
Proof.
  intros (_ & He & _ & s & _ & _ & Hs & Hc) p Hp. apply Hc in Hp.
  apply (linked_in (fun q => In q (bedges b)) s p Hs) in Hp. apply He in Hp. apply Hp.
Qed.

(** Regions of at most 32768 x 32768 pixels: the blobs kept are, in the order of the search,
    exactly those with every enabled measurement in its closed interval. *)
Theorem C61_filters_partial lm m im x y w h p t :
  area m im x y w h -> icc im = 1 -> (w + 2) * (h + 1) < W32 -> w <= 32768 -> h <= 32768 -> ~ empty_range p ->
  exists l l' keep, find lm m im x y w h no_limits t = Ok l /\ find lm m im x y w h p t = Ok l' /\
    map iblob l' = filter keep (map iblob l) /\
    forall b, In b (map iblob l) -> no_nan lm p b -> (keep b = true <-> within_limits lm p b).
Proof.
  intros A C Hsz Hw Hh Hr.
  destruct (C60_components_partial lm m im x y w h t A C Hsz) as (l & Hl & (Hcov & _) & Ho).
  destruct (find_blobs m im x y w h t A C Hsz) as (mp & mp' & bs & Hm & Hc & _).
  assert (El : l = map fresh bs).
  { unfold find in Hl. rewrite (valid_roi_ok m im x y w h) in Hl by apply A.
    unfold is_gray, GRAY_SCALE in Hl. rewrite C in Hl. cbn [Z.eqb Pos.eqb] in Hl. cbv iota in Hl.
    change (verify_all no_limits) with true in Hl. cbv iota in Hl.
    rewrite Hm in Hl. cbn [bind] in Hl. rewrite Hc in Hl. cbn [bind snd] in Hl. rewrite select_none in Hl. congruence. }
  assert (Eb : map iblob l = bs) by (rewrite El, map_map; cbn [fresh iblob]; apply map_id).
  destruct (select_ok lm p bs) as (l' & Hs & Hf & _).
  { intros b Hb _. assert (Hcl : close (bcontour b)).
    { rewrite <- Eb in Hb. apply in_map_iff in Hb. destruct Hb as (i & <- & Hi).
      assert (Hin : forall q, In q (bcontour (iblob i)) -> x <= fst q < x + w /\ y <= snd q < y + h).
      { intros q Hq. apply (contour_bright _ _ (Ho i Hi)) in Hq.
        assert (B : bright m im x y w h t q) by (apply Hcov; exists (iblob i); split; [apply in_map, Hi|exact Hq]).
        unfold bright in B. tauto. }
      intros a c Ha Hc'. destruct (Hin a Ha) as (A1 & A2). destruct (Hin c Hc') as (C1 & C2). unfold dist2.
      assert (G : forall u, Z.abs u <= 32767 -> u * u <= 1073676289) by (clear; intros; nia).
      pose proof (G (fst a - fst c) ltac:(lia)). pose proof (G (snd a - snd c) ltac:(lia)). lia. }
    destruct (extremes_ok _ Hcl) as (s & Hs & _). eauto. }
  exists l, l', (passes_all lm p). split; [exact Hl|]. split; [|split].
  - unfold find. rewrite (valid_roi_ok m im x y w h) by apply A.
    unfold is_gray, GRAY_SCALE. rewrite C. cbn [Z.eqb Pos.eqb]. cbv iota.
    destruct (verify_all p) eqn:Ev; [|exfalso; apply Hr, verify_spec, Ev].
    rewrite Hm. cbn [bind]. rewrite Hc. cbn [bind snd]. exact Hs.
  - rewrite Eb. exact Hf.
  - intros b _ (N1 & N2 & N3 & N4 & N5 & N6). unfold passes_all, within_limits. rewrite !andb_true_iff.
    rewrite (passes_D _ _ _ N1 N4), (passes_D _ _ _ N2 N5), (passes_D _ _ _ N3 N6), !passes_Z. tauto.
Qed.

(** Limits on integer measurements only: no condition on the size or on NaN. *)
Theorem C61_integer_filters m im x y w h lm ph ps pw t :
  area m im x y w h -> icc im = 1 -> (w + 2) * (h + 1) < W32 ->
  let p := mkParameters (mkLimits None None) (mkLimits None None) pw ph (mkLimits None None) ps in
  ~ empty_range p ->
  exists l l' keep, find lm m im x y w h no_limits t = Ok l /\ find lm m im x y w h p t = Ok l' /\
    map iblob l' = filter keep (map iblob l) /\
    forall b, In b (map iblob l) ->
      (keep b = true <-> in_Z ph (blob_height b) /\ in_Z ps (blob_size b) /\ in_Z pw (blob_width b)).
Proof.
  intros A C Hsz p Hr.
  destruct (C60_components_partial lm m im x y w h t A C Hsz) as (l & Hl & _ & _).
  destruct (find_blobs m im x y w h t A C Hsz) as (mp & mp' & bs & Hm & Hc & _).
  assert (El : l = map fresh bs).
  { unfold find in Hl. rewrite (valid_roi_ok m im x y w h) in Hl by apply A.
    unfold is_gray, GRAY_SCALE in Hl. rewrite C in Hl. cbn [Z.eqb Pos.eqb] in Hl. cbv iota in Hl.
    change (verify_all no_limits) with true in Hl. cbv iota in Hl.
    rewrite Hm in Hl. cbn [bind] in Hl. rewrite Hc in Hl. cbn [bind snd] in Hl. rewrite select_none in Hl. congruence. }
  assert (Eb : map iblob l = bs) by (rewrite El, map_map; cbn [fresh iblob]; apply map_id).
  destruct (select_ok lm p bs) as (l' & Hs & Hf & _).
  { intros b Hb [H|H]; discriminate. }
  exists l, l', (passes_all lm p). split; [exact Hl|]. split; [|split].
  - unfold find. rewrite (valid_roi_ok m im x y w h) by apply A.
    unfold is_gray, GRAY_SCALE. rewrite C. cbn [Z.eqb Pos.eqb]. cbv iota.
    destruct (verify_all p) eqn:Ev; [|exfalso; apply Hr, verify_spec, Ev].
    rewrite Hm. cbn [bind]. rewrite Hc. cbn [bind snd]. exact Hs.
  - rewrite Eb. exact Hf.
  - intros b _. unfold passes_all. rewrite !andb_true_iff, !passes_Z. unfold p. cbn [pcircularity pelongation plength pheight psize pwidth].
    assert (G : forall q v, (set q -> in_Z q v) <-> in_Z q v).
    { clear. intros q v. split; auto. intros H. destruct (enabled q) eqn:E; [apply H, enabled_set, E|].
      unfold enabled in E. unfold in_Z. destruct (lmin q), (lmax q); try discriminate. split; discriminate. }
    rewrite !G. unfold passes. cbn [enabled lmin lmax]. tauto.
Qed.
Definition some_limits : parameters := mkParameters (mkLimits None None) (mkLimits None None)
  (mkLimits (Some 1) (Some 3)) (mkLimits (Some 3) None) (mkLimits (Some (dofZ 2)) (Some (dofZ 3))) (mkLimits None (Some 8)).
Example C61_case : match find zero_libm picture (img 1 7 5 1 8) 1 1 5 4 some_limits 8 with
  | Ok l => map (fun i => bpoints (iblob i)) l
  | _ => [] end =
  [[(1, 1); (2, 1); (1, 2); (3, 1); (3, 2); (1, 3); (2, 3); (3, 3)]].
Proof. vm_compute. reflexivity. Qed.
Example C61_case_applied : exists l l' keep, find zero_libm picture (img 1 7 5 1 8) 1 1 5 4 no_limits 8 = Ok l /\
  find zero_libm picture (img 1 7 5 1 8) 1 1 5 4 some_limits 8 = Ok l' /\
  map iblob l' = filter keep (map iblob l) /\
  forall b, In b (map iblob l) -> no_nan zero_libm some_limits b -> (keep b = true <-> within_limits zero_libm some_limits b).
Proof.
  apply C61_filters_partial; try lia; try reflexivity; [solve_area|].
  intros H. apply verify_spec in H. vm_compute in H. discriminate.
Qed.

(** Sorting.  [sorts] (BlobFilter) is what the C++ standard promises about std::sort for a
    strict weak order, [strict_weak].  The blobs end up with the largest value first. *)
Theorem C61_sort_partial srt lm c l : sorts srt ->
  (forall i, In i l -> ifound i c = true /\ exists v, compute lm c (iblob i) = Ok v /\ vnumber v) ->
  exists l', sort srt lm c l = Ok l' /\ Permutation l l' /\
    StronglySorted (fun a b => exists u v, compute lm c (iblob a) = Ok u /\ compute lm c (iblob b) = Ok v /\ vle v u) l'.
Proof. apply sort_ok. Qed.
Theorem C61_best_partial lm c l : l <> [] ->
  (forall i, In i l -> ifound i c = true /\ exists v, compute lm c (iblob i) = Ok v /\ vnumber v) ->
  exists i v, getBestBlob lm c l = Ok i /\ In i l /\ compute lm c (iblob i) = Ok v /\
    forall j, In j l -> exists u, compute lm c (iblob j) = Ok u /\ vle u v.
Proof. apply best_ok. Qed.

(** The values of the criteria with a limit are computed by [find] for the blobs it keeps. *)
Theorem C61_computed lm m im x y w h p t l : find lm m im x y w h p t = Ok l ->
  (forall i, In i l -> ifound i BySize = true) /\
  (set (pwidth p) -> forall i, In i l -> ifound i ByWidth = true) /\
  (set (pheight p) -> forall i, In i l -> ifound i ByHeight = true) /\
  (set (plength p) -> forall i, In i l -> ifound i ByLength = true) /\
  (set (pelongation p) -> forall i, In i l -> ifound i ByElongation = true) /\
  (set (pcircularity p) -> forall i, In i l -> ifound i ByCircularity = true).
Proof.
  unfold find. destruct (valid_roi im x y w h); [|discriminate]. destruct (is_gray im); [|discriminate].
  destruct (verify_all p); [|discriminate]. destruct (mark m im x y w h t (new_map w h)) as [mp| | |]; cbn [bind]; try discriminate.
  destruct (collect w h x y mp) as [(mp' & bs)| | |]; cbn [bind snd]; try discriminate. intros H.
  assert (K : forall {T} c lt (q : limits T) f k r, stage c lt q f k = Ok r ->
    forall i', In i' r -> exists i, In i k /\ forall d, ifound i' d = enabled q && criterion_eqb c d || ifound i d).
  { clear. intros T c lt q f k. unfold stage. destruct (enabled q).
    - induction k as [|i k IH]; intros r H; cbn [keep] in H.
      + injection H as <-. intros i' [].
      + destruct (f (iblob i)) as [v| | |]; cbn [bind] in H; try discriminate.
        destruct (keep c lt q f k) as [r'| | |]; cbn [bind] in H; try discriminate. injection H as <-.
        intros i' Hi. assert (Hi' : i' = computed c i \/ In i' r') by (destruct (removed lt q v); [right; exact Hi|destruct Hi; auto]).
        destruct Hi' as [-> |Hi']; [exists i; split; [left; reflexivity|reflexivity]|].
        destruct (IH r' eq_refl i' Hi') as (j & Hj & Hd). exists j. split; [right; exact Hj|exact Hd].
    - intros r H. injection H as <-. intros i Hi. exists i. auto. }
  assert (Hfound : forall i, In i l -> forall c, ifound i c = evaluated p c).
  { unfold select in H.
    destruct (stage ByCircularity _ _ _ _) as [l1| | |] eqn:E1; cbn [bind] in H; try discriminate.
    destruct (stage ByElongation _ _ _ _) as [l2| | |] eqn:E2; cbn [bind] in H; try discriminate.
    destruct (stage ByHeight _ _ _ _) as [l3| | |] eqn:E3; cbn [bind] in H; try discriminate.
    destruct (stage ByLength _ _ _ _) as [l4| | |] eqn:E4; cbn [bind] in H; try discriminate.
    destruct (stage BySize _ _ _ _) as [l5| | |] eqn:E5; cbn [bind] in H; try discriminate.
    intros i6 H6 c. destruct (K _ _ _ _ _ _ _ H i6 H6) as (i5 & H5 & ->). destruct (K _ _ _ _ _ _ _ E5 i5 H5) as (i4 & H4 & ->).
    destruct (K _ _ _ _ _ _ _ E4 i4 H4) as (i3 & H3 & ->). destruct (K _ _ _ _ _ _ _ E3 i3 H3) as (i2 & H2 & ->).
    destruct (K _ _ _ _ _ _ _ E2 i2 H2) as (i1 & H1 & ->). destruct (K _ _ _ _ _ _ _ E1 i1 H1) as (i0 & H0 & ->).
    apply in_map_iff in H0. destruct H0 as (b & <- & _). cbn [fresh ifound].
    destruct c; cbn; rewrite ?andb_false_r, ?andb_true_r, ?orb_false_r, ?orb_true_r; reflexivity. }
  repeat split; intros; rewrite Hfound by assumption; cbn; try reflexivity; apply enabled_set; assumption.
Qed.

(** The contract of std::sort can be met: insertion sort does. *)
Fixpoint insert {A} (lt : A -> A -> bool) (a : A) (l : list A) : list A :=
  match l with [] => [a] | b :: l' => if lt b a then b :: insert lt a l' else a :: l end.
Definition isort {A} (lt : A -> A -> bool) (l : list A) : list A := fold_right (insert lt) [] l.
Lemma insert_perm {A} (lt : A -> A -> bool) a l : Permutation (a :: l) (insert lt a l).
Proof.
  induction l as [|b l IH]; cbn; [reflexivity|]. destruct (lt b a); [|reflexivity].
  rewrite perm_swap. constructor. exact IH.
Qed.
Lemma isort_perm {A} (lt : A -> A -> bool) l : Permutation l (isort lt l).
Proof. induction l as [|a l IH]; cbn; [constructor|]. rewrite <- insert_perm. constructor. exact IH. Qed.
Lemma isort_sorts {A} : sorts (@isort A).
Proof.
  intros lt l SW. split; [apply isort_perm|].
  assert (G : forall k, (forall a, In a k -> In a l) -> StronglySorted (fun a b => lt b a = false) (isort lt k)).
  { induction k as [|a k IH]; intros Hk; [constructor|].
    change (isort lt (a :: k)) with (insert lt a (isort lt k)).
    assert (Hs : StronglySorted (fun a b => lt b a = false) (isort lt k)) by (apply IH; intros b Hb; apply Hk; right; auto).
    assert (Ha : In a l) by (apply Hk; left; auto).
    assert (Hin : forall b, In b (isort lt k) -> In b l).
    { intros b Hb. apply Hk. right. apply Permutation_in with (isort lt k); auto. apply Permutation_sym, isort_perm. }
    revert Hs Hin. generalize (isort lt k). clear IH Hk. intros r Hs. induction Hs as [|b r Hs IH Hf]; intros Hin; cbn [insert].
    - repeat constructor.
    - assert (Hb : In b l) by (apply Hin; left; auto). rewrite Forall_forall in Hf. destruct (lt b a) eqn:E.
      + constructor; [apply IH; intros c Hc; apply Hin; right; auto|]. apply Forall_forall. intros c Hc.
        apply (Permutation_in c (Permutation_sym (insert_perm lt a r))) in Hc. destruct Hc as [<-|Hc]; [|auto].
        apply (sw_asym _ _ SW); auto.
      + constructor; [constructor; [exact Hs|apply Forall_forall; exact Hf]|]. apply Forall_forall. intros c [<-|Hc]; [exact E|].
        apply (sw_incomp _ _ SW a b c); auto. apply Hin. right; auto. }
  apply G. auto.
Qed.
Example C61_sort_case : match find zero_libm picture (img 1 7 5 1 8) 1 1 5 4
    (mkParameters (mkLimits None None) (mkLimits None None) (mkLimits (Some 1) None) (mkLimits None None) (mkLimits None None) (mkLimits None None)) 7 with
  | Ok l => match sort isort zero_libm ByWidth l with Ok l' => map (fun i => (blob_width (iblob i), blob_size (iblob i))) l' | _ => [] end
  | _ => [] end = [(3, 8); (1, 1); (1, 1)].
Proof. vm_compute. reflexivity. Qed.

(** Sorting what [find] returned by a criterion without a limit reads values that have not been
    computed, and the best of no blobs does not exist. *)
Definition C61_sort_claim : Prop := forall srt lm m im x y w h p t l c, sorts srt ->
  area m im x y w h -> icc im = 1 -> find lm m im x y w h p t = Ok l ->
  exists l', sort srt lm c l = Ok l' /\ Permutation l l'.
Theorem C61_sort_refuted : ~ C61_sort_claim.
Proof.
  intros H.
  destruct (find zero_libm picture (img 1 7 5 1 8) 1 1 5 4 no_limits 8) as [l| | |] eqn:E; try (vm_compute in E; discriminate).
  destruct (H isort zero_libm picture (img 1 7 5 1 8) 1 1 5 4 no_limits 8 l ByWidth isort_sorts) as (l' & Hs & _); auto.
  - clear. solve_area.
  - clear H. assert (Eu : match find zero_libm picture (img 1 7 5 1 8) 1 1 5 4 no_limits 8 with
       | Ok l => match sort isort zero_libm ByWidth l with UB => true | _ => false end | _ => true end = true) by (vm_compute; reflexivity).
    rewrite E, Hs in Eu. discriminate.
Qed.
Theorem C61_best_of_none lm c : getBestBlob lm c [] = UB.
Proof. reflexivity. Qed.
Print Assumptions C61_filters_partial.
Print Assumptions C61_integer_filters.
Print Assumptions C61_sort_partial.
Print Assumptions C61_best_partial.
Print Assumptions C61_computed.
Print Assumptions C61_sort_refuted.

(** ** C88: measurements *)

(** Centre: the quotients of the sums of the coordinates by the number of points. *)
Definition total (l : list Z) : Z := fold_right Z.add 0 l.
Definition is_center (b : blob) : Prop :=
  center b = (ddiv (dofZ (total (map fst (bpoints b)))) (dofZ (Z.of_nat (length (bpoints b)))),
              ddiv (dofZ (total (map snd (bpoints b)))) (dofZ (Z.of_nat (length (bpoints b))))).
Theorem C88_center_partial b :
  (forall p, In p (bpoints b) -> 0 <= fst p /\ 0 <= snd p) ->
  total (map fst (bpoints b)) < 2147483648 -> total (map snd (bpoints b)) < 2147483648 -> is_center b.
Proof.
  intros Hp H1 H2. unfold is_center, center, blob_size.
  rewrite !int_sum_ok; auto; intros v Hv; apply in_map_iff in Hv; destruct Hv as (p & <- & Hv); apply Hp, Hv.
Qed.
Definition C88_center_claim : Prop := forall b,
  (forall p, In p (bpoints b) -> 0 <= fst p < W32 /\ 0 <= snd p < W32) -> is_center b.
Definition far_blob : blob := mkBlob [(1431655760, 0); (1431655761, 0)] [] [].
Theorem C88_center_refuted : ~ C88_center_claim.
Proof.
  intros H. assert (K : is_center far_blob).
  { apply H. unfold W32. intros p [<-|[<-|[]]]; cbn; lia. }
  clear H. unfold is_center in K. apply (f_equal fst) in K. vm_compute in K. discriminate.
Qed.
Example C88_center_case : is_center (mkBlob [(3, 5); (4, 5); (4, 6)] [] []).
Proof. apply C88_center_partial; [|reflexivity|reflexivity]. intros p [<-|[<-|[<-|[]]]]; cbn; lia. Qed.

(** Length: the root of the largest squared distance of two contour points. *)
Definition is_length (b : blob) (v : double) : Prop := exists d, v = dsqrt (dofZ d) /\
  (forall p q, In p (bcontour b) -> In q (bcontour b) -> dist2 p q <= d) /\
  exists p q, In p (bcontour b) /\ In q (bcontour b) /\ dist2 p q = d.
Theorem C88_length_partial b : bcontour b <> [] ->
  (forall p q, In p (bcontour b) -> In q (bcontour b) -> dist2 p q < 2147483648) ->
  exists v, blob_length b = Ok v /\ is_length b v.
Proof.
  intros Hne Hc. destruct (extremes_ok _ Hc) as (s & Hs & H1 & H2). destruct (H2 Hne) as (p & q & Hp & Hq & E).
  eexists. unfold blob_length. rewrite Hs. cbn [bind]. split; [reflexivity|].
  exists (fst (fst s)). split; [reflexivity|]. split; [exact H1|]. eauto.
Qed.
Definition C88_length_claim : Prop := forall b, bcontour b <> [] ->
  (forall p, In p (bcontour b) -> 0 <= fst p < W32 /\ 0 <= snd p < W32) ->
  exists v, blob_length b = Ok v /\ is_length b v.
Theorem C88_length_refuted : ~ C88_length_claim.
Proof.
  intros H. destruct (H (mkBlob [] [] [(0, 0); (46341, 0)])) as (v & E & _).
  - discriminate.
  - unfold W32. intros p [<-|[<-|[]]]; cbn; lia.
  - vm_compute in E. discriminate.
Qed.
Example C88_length_case : blob_length (mkBlob [] [] [(10, 7); (13, 11); (12, 8)]) = Ok (dofZ 5).
Proof. vm_compute. reflexivity. Qed.

(** Width and height: the number of columns and rows from the first to the last of the contour. *)
Lemma list_max_spec l : l <> [] -> In (list_max l) l /\ forall v, In v l -> v <= list_max l.
Proof.
  unfold list_max. intros Hne. destruct l as [|a l]; [contradiction|]. cbn [hd fold_left]. rewrite Z.max_id. clear Hne.
  assert (G : forall l a, (In (fold_left Z.max l a) (a :: l)) /\ a <= fold_left Z.max l a /\ forall v, In v l -> v <= fold_left Z.max l a).
  { clear. induction l as [|b l IH]; intros a; cbn [fold_left]; [repeat split; [left; auto|lia|intros v []]|].
    destruct (IH (Z.max a b)) as (H1 & H2 & H3). split; [|split; [lia|]].
    - destruct H1 as [H1|H1]; [|right; right; exact H1]. rewrite <- H1. destruct (Z.max_spec a b) as [(_ & ->)|(_ & ->)]; cbn; auto.
    - intros v [<-|Hv]; [lia|auto]. }
  destruct (G l a) as (H1 & H2 & H3). split; auto. intros v [<-|Hv]; auto.
Qed.
Lemma list_min_spec l : l <> [] -> In (list_min l) l /\ forall v, In v l -> list_min l <= v.
Proof.
  unfold list_min. intros Hne. destruct l as [|a l]; [contradiction|]. cbn [hd fold_left]. rewrite Z.min_id. clear Hne.
  assert (G : forall l a, (In (fold_left Z.min l a) (a :: l)) /\ fold_left Z.min l a <= a /\ forall v, In v l -> fold_left Z.min l a <= v).
  { clear. induction l as [|b l IH]; intros a; cbn [fold_left]; [repeat split; [left; auto|lia|intros v []]|].
    destruct (IH (Z.min a b)) as (H1 & H2 & H3). split; [|split; [lia|]].
    - destruct H1 as [H1|H1]; [|right; right; exact H1]. rewrite <- H1. destruct (Z.min_spec a b) as [(_ & ->)|(_ & ->)]; cbn; auto.
    - intros v [<-|Hv]; [lia|auto]. }
  destruct (G l a) as (H1 & H2 & H3). split; auto. intros v [<-|Hv]; auto.
Qed.
Definition spans (l : list Z) (n : Z) : Prop := exists lo hi, In lo l /\ In hi l /\
  (forall v, In v l -> lo <= v <= hi) /\ n = hi - lo + 1.
Theorem C88_extent b : bcontour b <> [] ->
  (forall p, In p (bcontour b) -> 0 <= fst p < W32 - 1 /\ 0 <= snd p < W32 - 1) ->
  spans (map fst (bcontour b)) (blob_width b) /\ spans (map snd (bcontour b)) (blob_height b).
Proof.
  intros Hne Hp.
  assert (G : forall f : Z * Z -> Z, (forall p, In p (bcontour b) -> 0 <= f p < W32 - 1) ->
    spans (map f (bcontour b)) (extent (map f (bcontour b)))).
  { intros f Hf. assert (Hn : map f (bcontour b) <> []) by (destruct (bcontour b); [contradiction|discriminate]).
    destruct (list_max_spec _ Hn) as (M1 & M2). destruct (list_min_spec _ Hn) as (N1 & N2).
    exists (list_min (map f (bcontour b))), (list_max (map f (bcontour b))). repeat split; auto.
    unfold extent. apply u32_small.
    assert (R : forall v, In v (map f (bcontour b)) -> 0 <= v < W32 - 1).
    { intros v Hv. apply in_map_iff in Hv. destruct Hv as (p & <- & Hv). auto. }
    pose proof (R _ M1). pose proof (R _ N1). pose proof (M2 _ N1). lia. }
  split; apply G; intros p Hin; apply Hp, Hin.
Qed.
Example C88_extent_case : blob_width (mkBlob [] [] [(10, 7); (13, 11); (12, 8)]) = 4 /\ blob_height (mkBlob [] [] [(10, 7); (13, 11); (12, 8)]) = 5.
Proof. split; reflexivity. Qed.
Print Assumptions C88_center_partial.
Print Assumptions C88_center_refuted.
Print Assumptions C88_length_partial.
Print Assumptions C88_length_refuted.
Print Assumptions C88_extent.

(** ** C89: elongation *)

(** Facts of any reasonable C library. *)
Definition sane (lm : libm) : Prop :=
  l_atan2 lm (dofZ 0) (dofZ 0) = dofZ 0 /\
  (forall s, l_sin lm (S754_zero s) = S754_zero s) /\ (forall s, l_cos lm (S754_zero s) = dofZ 1).
(** A straight vertical line of [n] pixels is n - 1 long and, by the rule of the code, 1 thick. *)
Definition vertical (n : nat) : list (Z * Z) := map (fun k => (0, Z.of_nat k)) (seq 0 n).
Definition C89_claim : Prop := forall lm n, sane lm -> (2 <= n)%nat -> (n <= 1000)%nat ->
  blob_elongation lm (mkBlob (vertical n) (vertical n) (vertical n)) = Ok (dofZ (Z.of_nat n - 1)).
(** The y of the end point is taken from its x, so the line is not turned and its "thickness" is
    its length. *)
Theorem C89_claim_refuted : ~ C89_claim.
Proof.
  intros H. assert (S : sane zero_libm) by (repeat split).
  specialize (H zero_libm 4%nat S ltac:(lia) ltac:(lia)). vm_compute in H. discriminate.
Qed.
Theorem C89_vertical_wrong lm : sane lm ->
  blob_elongation lm (mkBlob (vertical 4) (vertical 4) (vertical 4)) = Ok (dofZ 1).
Proof.
  intros (H1 & H2 & H3). unfold blob_elongation. cbn [bcontour].
  replace (1 <? Z.of_nat (length (vertical 4))) with true by reflexivity.
  replace (extremes (vertical 4)) with (Ok (9, (0, 0), (0, 0)) : res mem (Z * (Z * Z) * (Z * Z))) by (vm_compute; reflexivity).
  cbn [bind]. change (u32 (snd (0, 0) - snd (0, 0))) with 0. change (u32 (fst (0, 0) - fst (0, 0))) with 0.
  rewrite H1. change (dopp (dofZ 0)) with (S754_zero true). rewrite H2, H3. vm_compute. reflexivity.
Qed.
Theorem C89_point lm p : blob_elongation lm (mkBlob [p] [p] [p]) = Ok (dofZ 1).
Proof. reflexivity. Qed.
Print Assumptions C89_claim_refuted.
Print Assumptions C89_vertical_wrong.
