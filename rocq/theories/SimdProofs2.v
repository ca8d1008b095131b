(** Proofs about the vectorised functions that reduce an image: Sum, ProjectionProfile, Accumulate. *)
From Coq Require Import ZArith List Bool Lia.
From Verif Require Import Base Image Spec BaseProofs ImgFun ImgLemmas ImgProofs ConvProofs ReduceProofs Simd StepProofs SimdProofs.
Import ListNotations.
Open Scope Z_scope.

Ltac Zify.zify_post_hook ::= Z.div_mod_to_equations.

(** ** Sums of lists and of registers *)

Definition lsum (l : list Z) : Z := fold_right Z.add 0 l.

Lemma lsum_app a b : lsum (a ++ b) = lsum a + lsum b.
Proof. unfold lsum. induction a as [|x a IH]; cbn [app fold_right]; lia. Qed.

Lemma lsum_zseq (f : Z -> Z) n : forall s, lsum (map f (zseq s n)) = zsum (Z.of_nat n) (fun i => f (s + i)).
Proof.
  induction n as [|n IH]; intros s; [reflexivity|].
  cbn [zseq map]. unfold lsum in *. cbn [fold_right]. rewrite IH.
  replace (Z.of_nat (S n)) with (Z.of_nat n + 1) by lia.
  assert (G : forall k, 0 <= k -> zsum (k + 1) (fun i => f (s + i)) = f s + zsum k (fun i => f (s + 1 + i))).
  { intros k Hk. pattern k. apply natlike_ind; [|intros j Hj IHj|assumption].
    - rewrite (zsum_S 0) by lia. rewrite !zsum_0, Z.add_0_r. lia.
    - unfold Z.succ. rewrite zsum_S by lia. rewrite IHj. rewrite zsum_S by lia.
      replace (s + (j + 1)) with (s + 1 + j) by lia. lia. }
  rewrite G by lia. reflexivity.
Qed.

(** Accumulating in uint32_t *)
Definition ueq (a b : Z) : Prop := u32 a = u32 b.

Lemma ueq_refl a : ueq a a. Proof. reflexivity. Qed.
Lemma ueq_add a b c d : ueq a b -> ueq c d -> ueq (a + c) (b + d).
Proof. unfold ueq, u32. intros H1 H2. rewrite Zplus_mod, H1, H2, <- Zplus_mod. reflexivity. Qed.
Lemma ueq_u32 a : ueq (u32 a) a.
Proof. unfold ueq, u32. apply Z.mod_mod. unfold W32. lia. Qed.
Lemma ueq_trans a b c : ueq a b -> ueq b c -> ueq a c.
Proof. unfold ueq. congruence. Qed.

Definition shape (k sz : nat) (r : reg) : Prop := length r = k /\ Forall (fun l => length l = sz) r.

Lemma map2_u32_sum a : forall b, length a = length b ->
  length (map2 (fun x y => u32 (x + y)) a b) = length a /\
  ueq (lsum (map2 (fun x y => u32 (x + y)) a b)) (lsum a + lsum b).
Proof.
  induction a as [|x a IH]; intros [|y b] Hl; try discriminate; [split; reflexivity|].
  rewrite map2_cons. injection Hl as Hl. destruct (IH b Hl) as [L E]. split; [simpl; lia|].
  unfold lsum in *. cbn [fold_right].
  replace (x + fold_right Z.add 0 a + (y + fold_right Z.add 0 b))
    with ((x + y) + (fold_right Z.add 0 a + fold_right Z.add 0 b)) by lia.
  apply ueq_add; [apply ueq_u32|exact E].
Qed.

Lemma add_epi32_sum k sz a : forall b, shape k sz a -> shape k sz b ->
  shape k sz (add_epi32 a b) /\ ueq (lsum (concat (add_epi32 a b))) (lsum (concat a) + lsum (concat b)).
Proof.
  revert k. induction a as [|x a IH]; intros k [|y b] [La Fa] [Lb Fb]; simpl in La, Lb; subst k; try discriminate.
  - split; [split; [reflexivity|constructor]|reflexivity].
  - inversion Fa; inversion Fb; subst.
    injection Lb as Lb.
    destruct (IH (length a) b) as [[L F] E]; [split; auto|split; auto|].
    unfold add_epi32, vmap2 in *. rewrite map2_cons.
    destruct (map2_u32_sum x y) as [L1 E1]; [congruence|].
    split; [split; [simpl; lia|constructor; auto; congruence]|].
    cbn [concat]. rewrite !lsum_app.
    replace (lsum x + lsum (concat a) + (lsum y + lsum (concat b)))
      with ((lsum x + lsum y) + (lsum (concat a) + lsum (concat b))) by lia.
    apply ueq_add; assumption.
Qed.

Lemma zero_shape k : shape k 4 (repeat (repeat 0 4) k) /\ lsum (concat (repeat (repeat 0 4) k)) = 0.
Proof.
  split.
  - split; [apply repeat_length|]. apply Forall_forall. intros l Hl. apply repeat_spec in Hl. subst. reflexivity.
  - induction k as [|k IH]; [reflexivity|]. cbn [repeat concat]. rewrite lsum_app.
    cbn [repeat] in IH. rewrite IH. reflexivity.
Qed.

Lemma add_lanes_sum s r : s = u32 s -> add_lanes s r = u32 (s + lsum (concat r)).
Proof.
  unfold add_lanes. generalize (concat r) as l. intros l. revert s.
  induction l as [|x l IH]; intros s Hs.
  - cbn [fold_left lsum fold_right]. rewrite Z.add_0_r. exact Hs.
  - cbn [fold_left]. rewrite IH by (symmetry; apply ueq_u32).
    unfold lsum. cbn [fold_right]. rewrite Z.add_assoc.
    apply ueq_add; [apply ueq_u32|reflexivity].
Qed.

(** A register step whose elements add up to the sum of the bytes *)
Definition sumvec (k : nat) (vec : reg -> reg) : Prop :=
  forall l, length l = (k * 16)%nat -> (forall x, In x l -> byte x) ->
    shape k 4 (vec (lanes k 16 l)) /\ lsum (concat (vec (lanes k 16 l))) = lsum l.

(** Lanewise steps *)
Lemma sumvec_lane (f : lane -> lane) k :
  (forall l, length l = 16%nat -> (forall x, In x l -> byte x) -> length (f l) = 4%nat /\ lsum (f l) = lsum l) ->
  sumvec k (map f).
Proof.
  intros Hf. induction k as [|k IH]; intros l Hl Hb.
  - destruct l; [|discriminate]. split; [split; [reflexivity|constructor]|reflexivity].
  - cbn [lanes map concat].
    destruct (IH (skipn 16 l)) as [[L F] E].
    { rewrite skipn_length. lia. }
    { intros x Hx. apply Hb. rewrite <- (firstn_skipn 16 l). apply in_or_app. auto. }
    destruct (Hf (firstn 16 l)) as [L1 E1].
    { rewrite firstn_length. lia. }
    { intros x Hx. apply Hb. rewrite <- (firstn_skipn 16 l). apply in_or_app. auto. }
    split; [split; [cbn [length]; lia|constructor; assumption]|].
    rewrite lsum_app, E, E1, <- lsum_app, firstn_skipn. reflexivity.
Qed.

(** The x86 step lane by lane *)
Definition wide_lane (a : lane) : lane :=
  let z := repeat 0 16 in
  let s := of16 (map2 (fun x y => u16 (x + y)) (as16 (interleave (firstn 8 a) (firstn 8 z)))
                                             (as16 (interleave (skipn 8 a) (skipn 8 z)))) in
  map2 (fun x y => u32 (x + y)) (as32 (interleave16 (firstn 8 s) (firstn 8 z))) (as32 (interleave16 (skipn 8 s) (skipn 8 z))).

Lemma wide_sum_lanes k : forall r, length r = k -> wide_sum k r = map wide_lane r.
Proof.
  induction k as [|k IH]; intros [|a r] Hl; try discriminate; [reflexivity|].
  injection Hl as Hl. specialize (IH r Hl).
  unfold wide_sum in *. cbn [setzero set1 repeat] in *. cbn [map].
  rewrite <- IH. reflexivity.
Qed.

Lemma lanes_length k sz : forall l, length (lanes k sz l) = k.
Proof. induction k; intros l; simpl; auto. Qed.

Ltac bytes_of H :=
  repeat match type of H with forall x, In x (?a :: ?l) -> byte x =>
    let Hn := fresh "B" in
    pose proof (H a (or_introl eq_refl)) as Hn; unfold byte in Hn;
    let H' := fresh in
    assert (H' : forall x, In x l -> byte x) by (intros; apply H; right; assumption);
    clear H; rename H' into H end.

Ltac split16 l :=
  do 16 (let x := fresh "x" in destruct l as [|x l]; [discriminate|]);
  destruct l; [|discriminate].

Lemma u16_small' x : 0 <= x < 65536 -> u16 x = x.
Proof. unfold u16. intros. apply Z.mod_small. assumption. Qed.
Lemma u32_small' x : 0 <= x < 65536 -> u32 x = x.
Proof. unfold u32, W32. intros. apply Z.mod_small. lia. Qed.

Lemma le16 v : v mod 256 + 256 * (v / 256) = v.
Proof. lia. Qed.
Lemma le32 v z : z = 0 -> v mod 256 + 256 * (v / 256) + 65536 * z + 16777216 * z = v.
Proof. intros ->. lia. Qed.

Lemma wide_lane_sum l : length l = 16%nat -> (forall x, In x l -> byte x) ->
  length (wide_lane l) = 4%nat /\ lsum (wide_lane l) = lsum l.
Proof.
  intros Hl Hb. split16 l. bytes_of Hb.
  unfold wide_lane, map2.
  cbn [firstn skipn repeat interleave as16 combine map fst snd of16 flat_map app interleave16 as32 length lsum fold_right].
  split; [reflexivity|].
  rewrite !Z.mul_0_r, !Z.add_0_r.
  rewrite !u16_small' by lia. rewrite !le16.
  rewrite !u32_small' by lia. lia.
Qed.

Lemma neon_sum_lane l : length l = 16%nat -> (forall x, In x l -> byte x) ->
  length (neon_sum l) = 4%nat /\ lsum (neon_sum l) = lsum l.
Proof.
  intros Hl Hb. split16 l. unfold neon_sum, vget_high, vget_low, vaddl, map2.
  cbn [firstn skipn combine map fst snd length lsum fold_right].
  split; [reflexivity|]. lia.
Qed.

Lemma neon_vsum_lane l : length l = 16%nat -> (forall x, In x l -> byte x) ->
  length (neon_vsum l) = 4%nat /\ lsum (neon_vsum l) = lsum l.
Proof.
  intros Hl Hb. split16 l. bytes_of Hb. unfold neon_vsum, vget_high, vget_low, vaddl, vadd_u16, map2.
  cbn [firstn skipn repeat combine map fst snd length lsum fold_right].
  split; [reflexivity|].
  rewrite !Z.add_0_r. rewrite !u16_small'; try lia; rewrite !u16_small'; lia.
Qed.

Lemma wide_sumvec k : sumvec k (wide_sum k).
Proof.
  intros l Hl Hb. rewrite wide_sum_lanes by apply lanes_length.
  exact (sumvec_lane wide_lane k wide_lane_sum l Hl Hb).
Qed.
Lemma sum_vec_ok t : sumvec (nlanes t) (sum_vec t).
Proof.
  destruct t; try apply wide_sumvec. apply (sumvec_lane neon_sum), neon_sum_lane.
Qed.
Lemma proj_vvec_ok t : sumvec (nlanes t) (proj_vvec t).
Proof.
  destruct t; try apply wide_sumvec. apply (sumvec_lane neon_vsum), neon_vsum_lane.
Qed.

(** ** The loop over the full registers of a row *)

Lemma loadr_ok k (t : mem) p s :
  (forall i, s <= i < s + Z.of_nat (k * 16) -> inb t (padd p i) = true) ->
  loadr k t (padd p s) = Ok (lanes k 16 (map (fun i => get t (padd p i)) (zseq s (k * 16)))).
Proof.
  intros H. unfold loadr. rewrite span_from. rewrite loads_ok.
  - cbn [bind]. rewrite map_map. reflexivity.
  - intros q Hq. apply in_map_iff in Hq as (i & <- & Hi). apply zseq_In in Hi. auto.
Qed.

Lemma row_acc {E} k vec (G : Z -> Z) cnt acc :
  sumvec k vec -> shape k 4 acc ->
  (forall i, 0 <= i < Z.of_nat (cnt * (k * 16)) -> byte (G i)) ->
  exists acc', @iterM E reg cnt 0 (fun q acc =>
      Ok (add_epi32 acc (vec (lanes k 16 (map G (zseq (q * (16 * Z.of_nat k)) (k * 16))))))) acc = Ok acc' /\
    shape k 4 acc' /\ ueq (lsum (concat acc')) (lsum (concat acc) + zsum (Z.of_nat cnt * (16 * Z.of_nat k)) G).
Proof.
  intros Hv Hs Hb.
  set (n := 16 * Z.of_nat k) in *.
  assert (Hn : Z.of_nat (k * 16) = n) by (subst n; lia).
  destruct (@iterM_inv E reg (fun q a => shape k 4 a /\ ueq (lsum (concat a)) (lsum (concat acc) + zsum (q * n) G))
    (fun q acc => Ok (add_epi32 acc (vec (lanes k 16 (map G (zseq (q * n) (k * 16))))))) cnt 0 acc)
    as (acc' & He & Hsh & Hu).
  - split; [assumption|]. rewrite Z.mul_0_l, zsum_0, Z.add_0_r. reflexivity.
  - intros q a Hq [Hsa Hua]. eexists. split; [reflexivity|].
    destruct (Hv (map G (zseq (q * n) (k * 16)))) as [S1 E1].
    { rewrite map_length. apply zseq_length. }
    { intros x Hx. apply in_map_iff in Hx as (i & <- & Hi). apply zseq_In in Hi. apply Hb. subst n. nia. }
    destruct (add_epi32_sum k 4 a _ Hsa S1) as [S2 E2]. split; [exact S2|].
    eapply ueq_trans; [exact E2|]. rewrite E1, lsum_zseq, Hn.
    replace ((q + 1) * n) with (q * n + n) by lia.
    assert (Hz : forall a b f, 0 <= a -> 0 <= b -> zsum (a + b) f = zsum a f + zsum b (fun i => f (a + i))).
    { intros a0 b0 f Ha0 Hb0. pattern b0. apply natlike_ind; [rewrite Z.add_0_r, zsum_0; lia| |assumption].
      intros x Hx IHx. unfold Z.succ. rewrite Z.add_assoc, !zsum_S by lia. lia. }
    rewrite Hz by (subst n; nia). rewrite Z.add_assoc. apply ueq_add; [exact Hua|reflexivity].
  - exists acc'. split; [exact He|]. split; [exact Hsh|].
    replace (0 + Z.of_nat cnt) with (Z.of_nat cnt) in Hu by lia. exact Hu.
Qed.

Lemma zsum_split a b f : 0 <= a -> 0 <= b -> zsum (a + b) f = zsum a f + zsum b (fun i => f (a + i)).
Proof.
  intros Ha0 Hb0. pattern b. apply natlike_ind; [rewrite Z.add_0_r, zsum_0; lia| |assumption].
  intros x Hx IHx. unfold Z.succ. rewrite Z.add_assoc, !zsum_S by lia. lia.
Qed.

Lemma zsum_flat n h f : 0 <= n -> 0 <= h -> zsum (n * h) f = zsum h (fun j => zsum n (fun i => f (j * n + i))).
Proof.
  intros Hn Hh. pattern h. apply natlike_ind; [rewrite Z.mul_0_r; reflexivity| |assumption].
  intros x Hx IH. unfold Z.succ. rewrite zsum_S by lia. rewrite <- IH.
  replace (n * (x + 1)) with (n * x + n) by lia. rewrite zsum_split by nia. f_equal.
  apply zsum_ext. intros i Hi. f_equal. lia.
Qed.

(** ** Sum *)

Lemma sum_rows_ok k vec m p rs w h :
  (0 < k)%nat -> sumvec k vec -> 0 <= w < W32 -> 0 <= h -> 0 < rs -> h * rs < W32 ->
  (forall j i, 0 <= j < h -> 0 <= i < w ->
     inb m (padd p (j * rs + i)) = true /\ byte (get m (padd p (j * rs + i)))) ->
  sum_rows k vec m p rs w h = Ok (u32 (zsum h (fun j => zsum w (fun i => get m (padd p (j * rs + i)))))).
Proof.
  intros Hk Hv Hw Hh Hrs Hsm Hc. unfold sum_rows.
  set (n := 16 * Z.of_nat k).
  destruct (simd_widths w n) as (ET & EN & ES & Hq & Hr & Ew); [auto|subst n; lia|].
  rewrite ET, EN, ES.
  set (g := fun j i => get m (padd p (j * rs + i))).
  destruct (zero_shape k) as [Z1 Z2].
  rewrite walk_rows by (auto; lia).
  match goal with |- bind (iterM _ _ ?body _) _ = _ =>
    destruct (@iterM_inv mem (Z * reg) (fun j st => fst st = u32 (fst st) /\ shape k 4 (snd st) /\
        ueq (fst st + lsum (concat (snd st))) (zsum j (fun j => zsum w (g j))))
      body (Z.to_nat h) 0 (0, repeat (repeat 0 4) k)) as ([s acc] & He & Hs0 & Hsh & Hu)
  end.
  - cbn [fst snd]. split; [reflexivity|]. split; [exact Z1|]. rewrite Z2. reflexivity.
  - intros j [s acc] Hj (Hs0 & Hsh & Hu). cbn [fst snd] in *.
    unfold at_, c0. cbn [combine map nth fst snd].
    rewrite (walk_iterM (w / n)) by (try reflexivity; subst n; lia).
    destruct (@row_acc mem k vec (g j) (Z.to_nat (w / n)) acc Hv Hsh) as (acc' & Ha & Hsh' & Hu').
    { intros i Hi. apply Hc; lia. }
    match type of Ha with _ = Ok ?x =>
      match goal with |- exists t', bind (iterM ?N 0 ?b ?s0) _ = _ /\ _ =>
        assert (Ha2 : iterM N 0 b s0 = Ok acc') end end.
    { rewrite <- Ha. apply iterM_ext. intros q a Hq'. unfold at_. cbn [combine map nth fst snd].
      rewrite loadu_ok.
      - cbn [bind]. fold n. do 4 f_equal. apply map_ext. intros i. unfold g. rewrite padd_padd. reflexivity.
      - intros i Hi. rewrite padd_padd. apply Hc; [lia|]. subst n. nia. }
    rewrite Ha2. cbn [bind]. clear Ha2.
    replace (Z.of_nat (Z.to_nat (w / n)) * (16 * Z.of_nat k)) with (w / n * n) in Hu' by (subst n; lia).
    destruct (@iterM_inv mem Z (fun i t => t = u32 (s + zsum i (fun i => g j (w / n * n + i))))
      (fun i t => Ok (u32 (t + g j (w / n * n + i)))) (Z.to_nat (w mod n)) 0 s) as (s' & Hs' & Hss).
    { rewrite zsum_0, Z.add_0_r. exact Hs0. }
    { intros i t Hi ->. eexists. split; [reflexivity|]. rewrite zsum_S by lia.
      rewrite Z.add_assoc. apply ueq_add; [apply ueq_u32|reflexivity]. }
    rewrite Z2Nat.id in Hss by lia. rewrite Z.add_0_l in Hss.
    exists (s', acc'). split.
    + destruct (Z.ltb_spec 0 (w mod n)).
      * rewrite (walk_iterM (w mod n)) by (rewrite ?Z.mul_1_r; try reflexivity; lia).
        match goal with |- bind ?l _ = _ => assert (El : l = Ok s') end.
        { rewrite <- Hs'. apply iterM_ext. intros i t Hi. unfold at_. cbn [combine map nth fst snd].
          rewrite !padd_padd, Z.mul_1_r. rewrite load_ok by (rewrite <- ?Z.add_assoc; apply Hc; lia).
          cbn [bind]. unfold g. rewrite <- ?Z.add_assoc. reflexivity. }
        rewrite El. reflexivity.
      * assert (w mod n = 0) as E0 by lia. rewrite E0 in Hs'. cbn [Z.to_nat iterM] in Hs'.
        injection Hs' as <-. reflexivity.
    + cbn [fst snd]. split; [rewrite Hss; symmetry; apply ueq_u32|]. split; [exact Hsh'|].
      rewrite zsum_S by lia.
      assert (Hsp : zsum w (g j) = zsum (w / n * n) (g j) + zsum (w mod n) (fun i => g j (w / n * n + i))).
      { rewrite <- zsum_split by lia. f_equal. exact Ew. }
      rewrite Hsp.
      set (A := zsum (w / n * n) (g j)) in *. set (B := zsum (w mod n) (fun i => g j (w / n * n + i))) in *.
      rewrite Hss.
      replace (zsum j (fun j0 => zsum w (g j0)) + (A + B)) with ((B + zsum j (fun j0 => zsum w (g j0))) + A) by lia.
      eapply ueq_trans; [apply ueq_add; [apply ueq_u32|exact Hu']|].
      replace (s + B + (lsum (concat acc) + A)) with (B + (s + lsum (concat acc)) + A) by lia.
      apply ueq_add; [|reflexivity]. apply ueq_add; [reflexivity|exact Hu].
  - rewrite He. cbn [bind]. cbn [fst snd] in *. rewrite add_lanes_sum by assumption.
    rewrite Z2Nat.id in Hu by lia. f_equal. exact Hu.
Qed.

(** Samples of a region after row merging, read only *)
Lemma merged_read m im x y w h w' h' :
  wf m im -> roi_in im x y w h -> bytes m im ->
  OptimiseRoi (w * icc im) h [im] = (w', h') ->
  let g j i := padd (origin im x y (icc im)) (j * irs im + i) in
  0 < w' < W32 /\ 0 < h' /\ 0 < irs im /\ h' * irs im < W32 /\
  (forall j i, 0 <= j < h' -> 0 <= i < w' -> inb m (g j i) = true /\ byte (get m (g j i))) /\
  zsum h' (fun j => zsum w' (fun i => get m (g j i)))
  = zsum h (fun j => zsum (w * icc im) (fun i => get m (g j i))).
Proof.
  intros W R B Ho g.
  pose proof (wf_cc_pos _ _ W) as Hcc.
  assert (Hw0 : 0 < w) by apply R. assert (Hh0 : 0 < h) by apply R.
  pose proof (wf_bounds _ _ W) as (Bw & _ & _ & Bwc).
  assert (HW : 0 < w * icc im < W32) by (destruct R; nia).
  destruct (merge_cells (w * icc im) h _ w' h' HW Hh0 Ho) as (Hw' & Hh' & _ & Hto & Hfrom & Hinj).
  pose proof (roi_rows_small m im x y w h W R) as Hsm.
  pose proof (wf_rs_pos _ _ W) as Hrs.
  assert (Hi : In im [im]) by (simpl; auto).
  split; [auto|]. split; [lia|]. split; [auto|]. split; [nia|]. split.
  - intros j i Hj Hi'. destruct (Hto j i Hj Hi') as (j0 & i0 & Hj0 & Hi0 & Heq).
    unfold g. rewrite (Heq im Hi). split; [apply (cell_inb m im x y w h); auto|].
    destruct (split_index (icc im) i0 w) as (A1 & A2 & A3); try lia.
    pose proof (B (x + i0 / icc im) (y + j0) (i0 mod icc im)) as Hb. unfold pixel in Hb.
    rewrite px_origin, <- A3 in Hb. unfold byte. apply Hb; destruct R; lia.
  - destruct (OptimiseRoi_cases (w * icc im) h [im]) as [E1|(E1 & E2)]; try nia; rewrite E1 in Ho;
      injection Ho as <- <-; [reflexivity|].
    change (zsum 1 (fun j => zsum (w * icc im * h) (fun i => get m (g j i))))
      with (0 + zsum (w * icc im * h) (fun i => get m (g 0 i))).
    rewrite Z.add_0_l. rewrite zsum_flat by nia. apply zsum_ext. intros j Hj. apply zsum_ext. intros i Hi'.
    unfold g. destruct E2 as [_ E2]. specialize (E2 im Hi). rewrite E2. reflexivity.
Qed.

Lemma SimdSum_value b t m im x y w h :
  usable b t -> build_ok b = true ->
  wf m im -> icc im = 1 -> roi_in im x y w h -> bytes m im ->
  SimdSum b t m im x y w h
  = Ok (u32 (zsum h (fun j => zsum w (fun i => pixel m im (x + i) (y + j) 0)))).
Proof.
  intros Hu Hb W C R B.
  assert (Hker : forall t, t <> cpu ->
    (let '(w, h) := OptimiseRoi w h [im] in
     sum_rows (nlanes t) (sum_vec t) m (row_ptr im x y 1) (irs im) w h)
    = Ok (u32 (zsum h (fun j => zsum w (fun i => pixel m im (x + i) (y + j) 0))))).
  { intros t' Ht. assert (Hw0 : 0 < w) by apply R. assert (Hh0 : 0 < h) by apply R.
    rewrite (row_ptr_origin m im x y w h) by (auto; lia).
    destruct (OptimiseRoi w h [im]) as [w' h'] eqn:Ho.
    rewrite <- (Z.mul_1_r w), <- C in Ho. rewrite <- C.
    destruct (merged_read m im x y w h w' h' W R B Ho) as (A1 & A2 & A3 & A4 & A5 & A6).
    rewrite sum_rows_ok; auto; try lia.
    - rewrite A6. do 2 f_equal. rewrite C, Z.mul_1_r. apply zsum_ext. intros j Hj. apply zsum_ext. intros i Hi.
      unfold pixel. rewrite px_origin, C, Z.mul_1_r, Z.add_0_r. reflexivity.
    - apply nlanes_size; assumption.
    - apply sum_vec_ok. }
  unfold SimdSum, twice. rewrite (valid_roi_ok m) by assumption.
  rewrite gray_true by assumption.
  destruct (is_cpu t || (w <? getSimdSize t)) eqn:E1.
  - destruct (is_avx t && b_avx b) eqn:E2; [|apply Sum_value; assumption].
    apply andb_true_iff in E2 as [Et Eb].
    destruct (is_cpu sse || (w <? getSimdSize sse)) eqn:E3; [apply Sum_value; assumption|].
    rewrite (avx_sse b Hb Eb). apply Hker. discriminate.
  - apply orb_false_iff in E1 as [Et Ew].
    assert (Hn : t <> cpu) by (intros ->; discriminate Et).
    destruct Hu as [Hu|Hu]; [congruence|]. specialize (Hker t Hn).
    destruct (OptimiseRoi w h [im]) as [w' h']. rewrite Hu. exact Hker.
Qed.

Lemma SimdSum_rejects b t m im x y w h :
  valid_roi im x y w h && is_gray im = false -> SimdSum b t m im x y w h = Throw m.
Proof.
  intros Hg. unfold SimdSum, twice, Sum.
  destruct (valid_roi im x y w h); cbn [andb] in Hg; rewrite ?Hg;
  repeat match goal with |- context [if ?c then _ else _] => destruct c; auto end.
Qed.
