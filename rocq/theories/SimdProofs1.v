(** Proofs about the vectorised functions with one input: Invert and both Threshold functions. *)
From Coq Require Import ZArith List Bool Lia.
From Verif Require Import Base Image Spec BaseProofs ImgFun ImgLemmas ImgProofs Simd StepProofs SimdProofs.
Import ListNotations.
Open Scope Z_scope.

Ltac Zify.zify_post_hook ::= Z.div_mod_to_equations.

Section Rows1.
Variables (k : nat) (vop : reg -> reg) (f : Z -> Z).
Hypothesis Hk : (0 < k)%nat.
Hypothesis Hvop : vec1 k vop f.

Lemma packet1_ok (m : mem) (pa pd : ptr) (s : Z) :
  (forall i, s <= i < s + Z.of_nat (k * 16) ->
     inb m (padd pa i) = true /\ inb m (padd pd i) = true /\ byte (get m (padd pa i))) ->
  @step_ok mem (fun t => bind (loadu k t (padd pa s)) (fun a => storeu t (padd pd s) (vop a))) m
    (flat_map (fun i => [padd pa i]) (zseq s (k * 16)))
    (map (fun i => (padd pd i, f (get m (padd pa i)))) (zseq s (k * 16))).
Proof.
  intros H t Hl Hs.
  assert (Ha : forall i, s <= i < s + Z.of_nat (k * 16) -> get t (padd pa i) = get m (padd pa i)).
  { intros i Hi. apply Hs. apply in_flat_map. exists i. split; [apply zseq_In; auto|simpl; auto]. }
  rewrite loadu_ok by (intros i Hi; rewrite (same_len_inb m t) by assumption; apply H; auto).
  cbn [bind]. rewrite Hvop.
  - apply (storeu_step t pd s (k * 16)).
    + intros i Hi. rewrite (same_len_inb m t) by assumption. apply H; auto.
    + rewrite concat_lanes by (rewrite map_length, zseq_length; reflexivity).
      apply map_ext_in. intros i Hi. apply zseq_In in Hi. rewrite Ha by auto. reflexivity.
  - apply zseq_length.
  - intros i Hi. apply zseq_In in Hi. rewrite Ha by auto. apply H; auto.
Qed.

Lemma single1_ok (g : Z -> Z) (m : mem) (pa pd : ptr) :
  inb m pa = true -> inb m pd = true ->
  @step_ok mem (fun t => bind (load t pa) (fun a => store t pd (g a))) m [pa] [(pd, g (get m pa))].
Proof.
  intros Ha Hd t Hl Hs.
  rewrite load_ok by (rewrite (same_len_inb m t) by assumption; assumption). cbn [bind].
  rewrite store_ok by (rewrite (same_len_inb m t) by assumption; assumption).
  rewrite (Hs pa) by (simpl; auto).
  eexists. split; [reflexivity|]. split; [intros b; apply len_upd|]. split.
  - intros q Hq. apply get_upd_other. intros ->. apply Hq. simpl; auto.
  - intros p v [He|[]]. injection He as <- <-. apply get_upd_same.
Qed.

(** [g] is the expression used for the remaining pixels; it agrees with [f] on bytes. *)
Lemma rows1_ok (g : Z -> Z) (m : mem) (inY outY : ptr) (rsi rso w h : Z) :
  (forall a, byte a -> g a = f a) ->
  0 <= w < W32 -> 0 <= h -> 0 < rso -> h * rso < W32 ->
  let ok j i := 0 <= j < h /\ 0 <= i < w in
  let a j i := padd inY (j * rsi + i) in
  let d j i := padd outY (j * rso + i) in
  (forall j i, ok j i -> inb m (a j i) = true /\ inb m (d j i) = true /\ byte (get m (a j i))) ->
  (forall j i j' i', ok j i -> ok j' i' -> d j i = d j' i' -> j = j' /\ i = i') ->
  (forall j i j' i', ok j i -> ok j' i' -> d j i = a j' i' -> j = j' /\ i = i') ->
  exists m', rows1 k vop g m inY outY rsi rso w h = Ok m' /\ same_len m m' /\
    (forall q, (forall j i, ok j i -> q <> d j i) -> get m' q = get m q) /\
    (forall j i, ok j i -> get m' (d j i) = f (get m (a j i))).
Proof.
  intros Hg Hw Hh Hrso Hsm ok a d Hcell Hinj Hhaz.
  set (n := 16 * Z.of_nat k).
  destruct (simd_widths w n) as (ET & EN & ES & Hq & Hr & Ew); [auto|subst n; lia|].
  set (cnt := Z.to_nat (w / n)). set (tl := Z.to_nat (w mod n)).
  set (packet := fun j q (t : mem) =>
         bind (loadu k t (padd (padd inY (j * rsi)) (q * n))) (fun x =>
         storeu t (padd (padd outY (j * rso)) (q * n)) (vop x))).
  set (single := fun j i (t : mem) =>
         bind (load t (a j (w / n * n + i))) (fun x => @store mem t (d j (w / n * n + i)) (g x))).
  assert (Hrun : rows1 k vop g m inY outY rsi rso w h
     = iterM (Z.to_nat h) 0 (fun j t => bind (iterM cnt 0 (packet j) t) (iterM tl 0 (single j))) m).
  { unfold rows1. fold n. rewrite ET, EN, ES. rewrite walk_rows by (auto; lia).
    apply iterM_ext. intros j t Hj. unfold at_, c0, c1, c2. cbn [combine map nth fst snd].
    rewrite (walk_iterM (w / n)) by (try reflexivity; subst n; lia).
    apply bind_ext. intros t' _.
    rewrite if_tail.
    - rewrite (walk_iterM (w mod n)) by (rewrite ?Z.mul_1_r; try reflexivity; lia).
      unfold at_. cbn [combine map nth fst snd]. fold tl.
      apply iterM_ext. intros i u Hi. unfold single, a, d. rewrite !padd_padd.
      rewrite !Z.mul_1_r, ?Z.add_assoc. reflexivity.
    - lia.
    - intros H0. rewrite H0. apply walk_zero. }
  destruct (@units_rows mem (Z.to_nat h) cnt tl (k * 16) (fun j i => [a j i])
              (fun j i => [(d j i, f (get m (a j i)))]) (fun _ _ => []) packet single m)
    as (m' & He & Hl & Hf & Hv).
  - intros j q Hj Hq'. rewrite app_nil_r.
    assert (Hrange : forall i, q * n <= i < q * n + Z.of_nat (k * 16) -> ok j i).
    { intros i Hi. unfold ok. split; [lia|]. subst cnt. subst n. nia. }
    assert (Hn : Z.of_nat (k * 16) = n) by (subst n; lia). rewrite Hn.
    pose proof (packet1_ok m (padd inY (j * rsi)) (padd outY (j * rso)) (q * n)) as Hp.
    rewrite !flat_map_single in *.
    intros t Ht Hs.
    destruct Hp with (t := t) as (t' & A1 & A2 & A3 & A4).
    + intros i Hi. rewrite !padd_padd. apply (Hcell j i). apply Hrange; auto.
    + exact Ht.
    + intros s Hin. apply Hs. rewrite in_map_iff in *. destruct Hin as (i & Hi & Hin). exists i. split; auto.
      rewrite !padd_padd in Hi. exact Hi.
    + exists t'. split; [exact A1|]. split; [exact A2|].
      assert (Hmap : map (fun i => (padd (padd outY (j * rso)) i, f (get m (padd (padd inY (j * rsi)) i))))
                       (zseq (q * n) (k * 16))
               = map (fun i => (d j i, f (get m (a j i)))) (zseq (q * n) (k * 16))).
      { apply map_ext. intros i. rewrite !padd_padd. reflexivity. }
      rewrite Hmap in A3, A4. auto.
  - intros j i Hj Hi. replace (Z.of_nat cnt * Z.of_nat (k * 16)) with (w / n * n) by (subst n cnt; lia).
    assert (ok j (w / n * n + i)) by (unfold ok; subst tl; lia).
    destruct (Hcell j (w / n * n + i)) as (A1 & A2 & A3); auto.
    rewrite <- Hg by assumption. apply single1_ok; auto.
  - intros j i j' i' p (Hj & Hi) (Hj' & Hi') [<-|[]] [He|[]]. symmetry in He. cbn [fst] in He.
    apply Hinj; auto; unfold ok; subst cnt tl n; lia.
  - intros j i j' i' p (Hj & Hi) (Hj' & Hi') [<-|[]] Hin. cbn [fst] in Hin.
    apply Hhaz; unfold ok; try (subst cnt tl n; lia). destruct Hin as [<-|[]]; auto.
  - intros j q p _ _ [].
  - exists m'. split; [rewrite Hrun; exact He|]. split; [exact Hl|].
    assert (HU : forall j i, ok j i <-> 0 <= j < Z.of_nat (Z.to_nat h) /\ 0 <= i < Z.of_nat (cnt * (k * 16) + tl)).
    { intros j i. unfold ok. subst cnt tl n. lia. }
    split.
    + intros q Hq'. apply Hf. intros j i Hok [Hin|[]]. apply HU in Hok. apply (Hq' j i Hok). auto.
    + intros j i Hok. apply (Hv j i); [apply HU; auto|simpl; auto].
Qed.
End Rows1.

(** From samples after row merging to the region: one input. *)
Lemma merged_writes1 (r : res mem mem) (val : Z -> Z) m inp xi yi out xo yo w h w' h' :
  wf m inp -> wf m out -> icc inp = icc out ->
  roi_in inp xi yi w h -> roi_in out xo yo w h ->
  OptimiseRoi (w * icc out) h [inp; out] = (w', h') ->
  (exists m', r = Ok m' /\ same_len m m' /\
     (forall q, (forall j i, 0 <= j < h' /\ 0 <= i < w' ->
        q <> padd (origin out xo yo (icc out)) (j * irs out + i)) -> get m' q = get m q) /\
     (forall j i, 0 <= j < h' /\ 0 <= i < w' ->
        get m' (padd (origin out xo yo (icc out)) (j * irs out + i))
        = val (get m (padd (origin inp xi yi (icc out)) (j * irs inp + i))))) ->
  writes r m out xo yo w h (fun i j c => val (pixel m inp (xi + i) (yi + j) c)).
Proof.
  intros W1 Wo C1 R1 Ro Ho (m' & He & Hl & Hf & Hval).
  pose proof (wf_cc_pos _ _ Wo) as Hcc.
  assert (Hw0 : 0 < w) by apply Ro. assert (Hh0 : 0 < h) by apply Ro.
  pose proof (wf_bounds _ _ Wo) as (Bw & _ & _ & Bwc).
  assert (HW : 0 < w * icc out < W32) by (destruct Ro; nia).
  destruct (merge_cells (w * icc out) h _ w' h' HW Hh0 Ho) as (Hw' & Hh' & _ & Hto & Hfrom & Hinj).
  assert (Hio : In out [inp; out]) by (simpl; auto).
  assert (Hi1 : In inp [inp; out]) by (simpl; auto).
  destruct (@writes_of_samples mem (Ok m') m out xo yo w h
      (fun j i => val (get m (padd (origin inp xi yi (icc out)) (j * irs inp + i)))) Wo) as (m'' & E'' & V'' & F'').
  - exists m'. split; [reflexivity|]. split; [exact Hl|]. split.
    + intros q Hq. apply Hf. intros j i (Hj & Hi) ->.
      destruct (Hto j i Hj Hi) as (j0 & i0 & Hj0 & Hi0 & Heq).
      apply (Hq j0 i0); auto. rewrite (Heq out Hio). reflexivity.
    + intros j i Hj Hi. destruct (Hfrom j i Hj Hi) as (j' & i' & Hj' & Hi' & Heq).
      rewrite <- (Heq inp Hi1), <- (Heq out Hio). apply Hval. auto.
  - injection E'' as <-. exists m'. split; [exact He|]. split; [|exact F''].
    intros i j c Hin. rewrite V'' by assumption.
    unfold pixel. rewrite !px_origin, C1. reflexivity.
Qed.

Lemma merged_cells1 m inp xi yi out xo yo w h w' h' :
  wf m inp -> wf m out -> icc inp = icc out ->
  roi_in inp xi yi w h -> roi_in out xo yo w h -> bytes m inp ->
  no_hazard out xo yo inp xi yi w h ->
  OptimiseRoi (w * icc out) h [inp; out] = (w', h') ->
  let a j i := padd (origin inp xi yi (icc out)) (j * irs inp + i) in
  let d j i := padd (origin out xo yo (icc out)) (j * irs out + i) in
  let ok j i := 0 <= j < h' /\ 0 <= i < w' in
  0 < w' < W32 /\ 0 < h' /\ 0 < irs out /\ h' * irs out < W32 /\
  (forall j i, ok j i -> inb m (a j i) = true /\ inb m (d j i) = true /\ byte (get m (a j i))) /\
  (forall j i j' i', ok j i -> ok j' i' -> d j i = d j' i' -> j = j' /\ i = i') /\
  (forall j i j' i', ok j i -> ok j' i' -> d j i = a j' i' -> j = j' /\ i = i').
Proof.
  intros W1 Wo C1 R1 Ro B1 Z1 Ho a d ok.
  pose proof (wf_cc_pos _ _ Wo) as Hcc.
  assert (Hw0 : 0 < w) by apply Ro. assert (Hh0 : 0 < h) by apply Ro.
  pose proof (wf_bounds _ _ Wo) as (Bw & _ & _ & Bwc).
  assert (HW : 0 < w * icc out < W32) by (destruct Ro; nia).
  destruct (merge_cells (w * icc out) h _ w' h' HW Hh0 Ho) as (Hw' & Hh' & _ & Hto & Hfrom & Hinj).
  pose proof (roi_rows_small m out xo yo w h Wo Ro) as Hsm.
  pose proof (wf_rs_pos _ _ Wo) as Hrs.
  assert (Hio : In out [inp; out]) by (simpl; auto).
  assert (Hi1 : In inp [inp; out]) by (simpl; auto).
  assert (Hrw : w * icc out <= irs out) by (pose proof (wf_rs _ _ Wo); destruct Ro; nia).
  split; [auto|]. split; [lia|]. split; [auto|]. split; [nia|]. split; [|split].
  - intros j i (Hj & Hi). destruct (Hto j i Hj Hi) as (j0 & i0 & Hj0 & Hi0 & Heq).
    unfold a, d. rewrite (Heq inp Hi1), (Heq out Hio).
    split; [rewrite <- C1; apply (cell_inb m inp xi yi w h); auto; rewrite C1; auto|].
    split; [apply (cell_inb m out xo yo w h); auto|].
    destruct (split_index (icc out) i0 w) as (A & B & C); try lia.
    pose proof (B1 (xi + i0 / icc out) (yi + j0) (i0 mod icc out)) as Hb. unfold pixel in Hb.
    rewrite px_origin, C1, <- C in Hb. unfold byte. apply Hb; destruct R1; lia.
  - intros j i j' i' (Hj & Hi) (Hj' & Hi') He. apply padd_inj in He.
    apply (Hinj out j i j' i'); auto.
  - intros j i j' i' (Hj & Hi) (Hj' & Hi') He.
    destruct (Hto j i Hj Hi) as (j0 & i0 & Hj0 & Hi0 & Heq).
    destruct (Hto j' i' Hj' Hi') as (j1 & i1 & Hj1 & Hi1' & Heq').
    apply (Hinj out j i j' i'); auto.
    rewrite (Heq out Hio), (Heq' out Hio).
    unfold a, d in He. rewrite (Heq out Hio), (Heq' inp Hi1) in He.
    assert (j0 = j1 /\ i0 = i1) as [-> ->]; [|reflexivity].
    apply (hazard_samples out xo yo inp xi yi w h); auto; try lia; rewrite C1; auto.
Qed.

Lemma rows1_writes k vop f g m inp xi yi out xo yo w h w' h' :
  (0 < k)%nat -> vec1 k vop f -> (forall a, byte a -> g a = f a) ->
  wf m inp -> wf m out -> icc inp = icc out ->
  roi_in inp xi yi w h -> roi_in out xo yo w h -> bytes m inp ->
  no_hazard out xo yo inp xi yi w h ->
  OptimiseRoi (w * icc out) h [inp; out] = (w', h') ->
  writes (rows1 k vop g m (origin inp xi yi (icc out)) (origin out xo yo (icc out))
            (irs inp) (irs out) w' h') m out xo yo w h
    (fun i j c => f (pixel m inp (xi + i) (yi + j) c)).
Proof.
  intros Hk Hv Hg W1 Wo C1 R1 Ro B1 Z1 Ho.
  destruct (merged_cells1 m inp xi yi out xo yo w h w' h' W1 Wo C1 R1 Ro B1 Z1 Ho)
    as (Hw' & Hh' & Hrs & Hsm & Hc & Hi & Hz).
  apply (merged_writes1 _ f m inp xi yi out xo yo w h w' h'); auto.
  apply rows1_ok; auto; lia.
Qed.

(** Filling every row with 255: Threshold with threshold 0. *)
Lemma fill_rows_writes m inp xi yi out xo yo w h w' h' n :
  0 < n ->
  wf m inp -> wf m out -> icc inp = icc out ->
  roi_in inp xi yi w h -> roi_in out xo yo w h -> bytes m inp ->
  no_hazard out xo yo inp xi yi w h ->
  OptimiseRoi (w * icc out) h [inp; out] = (w', h') ->
  writes (fill_rows m (origin out xo yo (icc out)) (irs out) w' h' n) m out xo yo w h (fun _ _ _ => 255).
Proof.
  intros Hn W1 Wo C1 R1 Ro B1 Z1 Ho.
  destruct (merged_cells1 m inp xi yi out xo yo w h w' h' W1 Wo C1 R1 Ro B1 Z1 Ho)
    as (Hw' & Hh' & Hrs & Hsm & Hc & Hi & Hz).
  apply (merged_writes1 _ (fun _ => 255) m inp xi yi out xo yo w h w' h'); auto.
  unfold fill_rows. rewrite walk_rows by (auto; lia).
  destruct (simd_widths w' n) as (ET & EN & _ & Hq & Hr & Ew); [lia|lia|].
  rewrite ET, EN, <- Ew.
  set (d := fun j i => padd (origin out xo yo (icc out)) (j * irs out + i)).
  destruct (@scatter2_1 mem (fun j i => []) d (fun j i vs => Ok 255) (fun _ _ => 255)
              (Z.to_nat h') (Z.to_nat w') m) as (m' & Hrun & Hl & Hfr & Hval).
  - intros j i _ q [].
  - intros j i (Hj & Hi'). apply Hc. lia.
  - reflexivity.
  - intros j i j' i' (Hj & Hi1) (Hj' & Hi2) Heq. apply Hi; auto; lia.
  - intros j i j' i' _ _ [].
  - exists m'. split; [|split; [exact Hl|split]].
    + rewrite <- Hrun. apply iterM_ext. intros j t Hj. unfold at_, c0. cbn [combine map nth fst snd].
      replace w' with (Z.of_nat (Z.to_nat w')) at 1 by lia.
      rewrite <- (padd_0 (padd (origin out xo yo (icc out)) (j * irs out))).
      rewrite memset_iterM. apply iterM_ext. intros i u _.
      unfold sstep. cbn [loads bind]. rewrite padd_padd. reflexivity.
    + intros q Hq'. apply Hfr. intros j i (Hj & Hi'). apply Hq'; lia.
    + intros j i (Hj & Hi'). apply Hval. lia.
Qed.

(** ** Register operations *)

Lemma v_invert_vec t : vec1 (nlanes t) (v_invert t) invert_px.
Proof.
  assert (Hx : forall k, vec1 k (fun a => andnot_si a (set1 k 255)) invert_px).
  { intros k g l Hl Hb. unfold andnot_si. rewrite set1_lanes, (repeat_map 255 l) by assumption.
    vec_unfold. f_equal. apply map_ext_in. intros x Hx. specialize (Hb x Hx).
    apply Z.eqb_eq.
    exact (byte_all (fun a => Z.land (255 - a) 255 =? invert_px a) ltac:(vm_compute; reflexivity) _ Hb). }
  destruct t; try apply Hx.
  intros g l Hl Hb. unfold v_invert, vmvnq_u8. vec_unfold. f_equal. apply map_ext_in. intros x Hx'.
  specialize (Hb x Hx'). apply Z.eqb_eq.
  exact (byte_all (fun a => 255 - a =? invert_px a) ltac:(vm_compute; reflexivity) _ Hb).
Qed.

Lemma s8_xor a : byte a -> s8 (Z.lxor a 128) = a - 128.
Proof.
  intros Ha. apply Z.eqb_eq.
  exact (byte_all (fun a => s8 (Z.lxor a 128) =? a - 128) ltac:(vm_compute; reflexivity) _ Ha).
Qed.

Lemma land_masks (p q : bool) : Z.land (if p then 255 else 0) (if q then 255 else 0) = (if p && q then 255 else 0).
Proof. destruct p, q; reflexivity. Qed.
Lemma lor_masks (p q : bool) : Z.lor (if p then 255 else 0) (if q then 255 else 0) = (if p || q then 255 else 0).
Proof. destruct p, q; reflexivity. Qed.
Lemma andnot_mask (p : bool) : Z.land (255 - (if p then 255 else 0)) 255 = (if p then 0 else 255).
Proof. destruct p; reflexivity. Qed.

Lemma v_thr_vec t th : byte th -> is_neon t || (0 <? th) = true -> vec1 (nlanes t) (v_thr t th) (thr_px th).
Proof.
  intros Hth Hc.
  assert (Hx : forall k, 0 < th -> vec1 k (fun a => cmpgt_epi8 (xor_si a (set1 k 128)) (set1 k (Z.lxor (th - 1) 128))) (thr_px th)).
  { intros k Ht g l Hl Hb. unfold cmpgt_epi8, xor_si.
    rewrite !set1_lanes, (repeat_map 128 l), (repeat_map (Z.lxor (th - 1) 128) l) by assumption.
    vec_unfold. f_equal. apply map_ext_in. intros x Hx. specialize (Hb x Hx).
    rewrite !s8_xor by (unfold byte in *; lia). unfold thr_px.
    destruct (Z.ltb_spec (th - 1 - 128) (g x - 128)), (Z.ltb_spec (g x) th); auto; lia. }
  destruct t; cbn [is_neon orb] in Hc; try (apply Z.ltb_lt in Hc; apply Hx; assumption).
  intros g l Hl Hb. unfold v_thr, vcgeq_u8. cbn [nlanes] in *.
  rewrite set1_lanes, (repeat_map th l) by assumption. vec_unfold. f_equal.
  apply map_ext. intros x. unfold thr_px. destruct (Z.leb_spec th (g x)), (Z.ltb_spec (g x) th); auto; lia.
Qed.

Lemma v_thr2_vec t lo hi : byte lo -> byte hi -> t <> cpu -> t <> avx512 ->
  vec1 (nlanes t) (v_thr2 t lo hi) (thr2_px lo hi).
Proof.
  intros Hlo Hhi Hn1 Hn2 g l Hl Hb.
  destruct t; try congruence; unfold v_thr2, vandq_u8, vcgeq_u8, vcleq_u8, andnot_si, or_si, xor_si, and_si,
    cmpgt_epi8, cmplt_epi8; cbn [nlanes] in *.
  - destruct (Z.ltb_spec 0 lo).
    + rewrite !set1_lanes, (repeat_map 128 l), (repeat_map (Z.lxor hi 128) l), (repeat_map 255 l),
        (repeat_map (Z.lxor (lo - 1) 128) l) by assumption.
      vec_unfold. f_equal. apply map_ext_in. intros x Hx. specialize (Hb x Hx).
      rewrite !s8_xor by (unfold byte in *; lia). rewrite andnot_mask. unfold thr2_px.
      destruct (Z.ltb_spec (hi - 128) (g x - 128)), (Z.ltb_spec (lo - 1 - 128) (g x - 128)),
        (Z.ltb_spec (g x) lo), (Z.ltb_spec hi (g x)); try lia; reflexivity.
    + rewrite !set1_lanes, (repeat_map 128 l), (repeat_map (Z.lxor hi 128) l), (repeat_map 255 l) by assumption.
      vec_unfold. f_equal. apply map_ext_in. intros x Hx. specialize (Hb x Hx).
      rewrite !s8_xor by (unfold byte in *; lia). rewrite andnot_mask. unfold thr2_px. unfold byte in *.
      destruct (Z.ltb_spec (hi - 128) (g x - 128)),
        (Z.ltb_spec (g x) lo), (Z.ltb_spec hi (g x)); try lia; reflexivity.
  - rewrite !set1_lanes, (repeat_map 128 l), (repeat_map (Z.lxor hi 128) l), (repeat_map 255 l),
        (repeat_map (Z.lxor lo 128) l) by assumption.
    vec_unfold. f_equal. apply map_ext_in. intros x Hx. specialize (Hb x Hx).
    rewrite !s8_xor by (unfold byte in *; lia). rewrite lor_masks, andnot_mask. unfold thr2_px.
    destruct (Z.ltb_spec (hi - 128) (g x - 128)), (Z.ltb_spec (g x - 128) (lo - 128)),
        (Z.ltb_spec (g x) lo), (Z.ltb_spec hi (g x)); try lia; reflexivity.
  - rewrite !set1_lanes, (repeat_map lo l), (repeat_map hi l) by assumption. vec_unfold. f_equal.
    apply map_ext. intros x. rewrite land_masks. unfold thr2_px.
    destruct (Z.leb_spec lo (g x)), (Z.leb_spec (g x) hi), (Z.ltb_spec (g x) lo), (Z.ltb_spec hi (g x)); try lia; reflexivity.
Qed.

Lemma thr2_tail_ok t lo hi a : 0 <= lo -> byte a -> thr2_tail t lo hi a = thr2_px lo hi a.
Proof.
  intros Hlo Ha. unfold thr2_tail, thr2_px, byte in *. destruct (is_avx t); [|reflexivity]. cbn [andb].
  destruct (Z.leb_spec lo 0); [|reflexivity].
  destruct (Z.ltb_spec a lo); [lia|]. reflexivity.
Qed.

(** ** Dispatch *)

Lemma SimdInvert_rejects b t m inp xi yi out xo yo w h :
  valid_roi2 inp xi yi out xo yo w h && common_cc2 inp out = false ->
  SimdInvert b t m inp xi yi out xo yo w h = Throw m.
Proof.
  intros Hg. unfold SimdInvert, Invert, pixelwise1, twice.
  destruct (common_cc2 inp out); [|destruct (valid_roi2 inp xi yi out xo yo w h); reflexivity].
  rewrite andb_true_r in Hg. rewrite Hg.
  repeat match goal with |- context [if ?c then _ else _] => destruct c; auto end.
Qed.

Lemma SimdInvert_writes b t m inp xi yi out xo yo w h :
  usable b t -> build_ok b = true ->
  wf m inp -> wf m out -> icc inp = icc out ->
  roi_in inp xi yi w h -> roi_in out xo yo w h -> bytes m inp ->
  no_hazard out xo yo inp xi yi w h ->
  writes (SimdInvert b t m inp xi yi out xo yo w h) m out xo yo w h
    (fun i j c => invert_px (pixel m inp (xi + i) (yi + j) c)).
Proof.
  intros Hu Hb W1 Wo C1 R1 Ro B1 Z1.
  assert (Hkernel : forall t, t <> cpu -> compiled b t = true ->
    writes (let '(w, h) := OptimiseRoi (w * icc out) h [inp; out] in
      rows1 (nlanes t) (v_invert t) invert_px m (row_ptr inp xi yi (icc out)) (row_ptr out xo yo (icc out))
        (irs inp) (irs out) w h) m out xo yo w h
    (fun i j c => invert_px (pixel m inp (xi + i) (yi + j) c))).
  { intros t' Ht' Hc.
    rewrite (row_ptr_origin m inp xi yi w h) by (auto; pose proof (wf_cc_pos _ _ W1); lia).
    rewrite (row_ptr_origin m out xo yo w h) by (auto; pose proof (wf_cc_pos _ _ Wo); lia).
    destruct (OptimiseRoi (w * icc out) h [inp; out]) as [w' h'] eqn:Ho.
    apply (rows1_writes (nlanes t') (v_invert t') invert_px invert_px); auto.
    - apply nlanes_size; assumption.
    - apply v_invert_vec. }
  assert (Hsc : writes (Invert m inp xi yi out xo yo w h) m out xo yo w h
    (fun i j c => invert_px (pixel m inp (xi + i) (yi + j) c))).
  { apply (pixelwise1_writes common_cc2 (fun a => Ok (invert_px a))); auto.
    unfold common_cc2. apply Z.eqb_eq. exact C1. }
  unfold SimdInvert, twice.
  assert (Hcc : common_cc2 inp out = true) by (unfold common_cc2; apply Z.eqb_eq; exact C1).
  assert (Hva : valid_roi2 inp xi yi out xo yo w h = true).
  { unfold valid_roi2. rewrite !(valid_roi_ok m) by assumption. reflexivity. }
  rewrite Hcc, Hva, C1.
  rewrite (u32_width m out xo w) by (auto; first [apply Ro|assert (0 < w) by apply Ro; lia]).
  destruct (is_cpu t || (w * icc out <? getSimdSize t)) eqn:E1.
  - destruct (is_avx t && b_avx b) eqn:E2; [|exact Hsc].
    apply andb_true_iff in E2 as [Et Eb].
    destruct (is_cpu sse || (w * icc out <? getSimdSize sse)) eqn:E3; [exact Hsc|].
    rewrite (avx_sse b Hb Eb). apply Hkernel; [discriminate|]. apply avx_sse; auto.
  - apply orb_false_iff in E1 as [Et Ew].
    assert (Hn : t <> cpu) by (intros ->; discriminate Et).
    destruct Hu as [Hu|Hu]; [congruence|].
    specialize (Hkernel t Hn Hu).
    destruct (OptimiseRoi (w * icc out) h [inp; out]) as [w' h']. rewrite Hu. exact Hkernel.
Qed.

(** Both Threshold functions share the dispatch. *)
Definition thr_dispatch (b : build) (t : simd_type) (m : mem) (inp : image) (xi yi : Z) (out : image) (xo yo w h : Z)
    (scalar : res mem mem) (kernel : simd_type -> Z -> Z -> res mem mem) : res mem mem :=
  twice Timeout (fun rec t =>
    if is_cpu t || is_avx512 t || (w <? getSimdSize t) then
      (if is_avx t && b_avx b then rec sse else scalar)
    else
      guard valid_roi2 inp xi yi out xo yo w h with m;
      guard (is_gray inp && is_gray out) with m;
      let '(w, h) := OptimiseRoi w h [inp; out] in
      if compiled b t && negb (is_avx512 t) then kernel t w h else Throw m) t.

Lemma thr_dispatch_rejects b t m inp xi yi out xo yo w h scalar kernel :
  valid_roi2 inp xi yi out xo yo w h && (is_gray inp && is_gray out) = false ->
  scalar = Throw m ->
  thr_dispatch b t m inp xi yi out xo yo w h scalar kernel = Throw m.
Proof.
  intros Hg ->. unfold thr_dispatch, twice.
  destruct (valid_roi2 inp xi yi out xo yo w h); cbn [andb] in Hg; rewrite ?Hg;
  repeat match goal with |- context [if ?c then _ else _] => destruct c; auto end.
Qed.

Lemma thr_dispatch_writes b t m inp xi yi out xo yo w h scalar kernel val :
  usable b t -> build_ok b = true ->
  wf m inp -> wf m out -> icc inp = 1 -> icc out = 1 ->
  roi_in inp xi yi w h -> roi_in out xo yo w h ->
  writes scalar m out xo yo w h val ->
  (forall t w' h', t <> cpu -> t <> avx512 -> OptimiseRoi w h [inp; out] = (w', h') ->
     writes (kernel t w' h') m out xo yo w h val) ->
  writes (thr_dispatch b t m inp xi yi out xo yo w h scalar kernel) m out xo yo w h val.
Proof.
  intros Hu Hb W1 Wo C1 C2 R1 Ro Hsc Hk. unfold thr_dispatch, twice.
  assert (Hva : valid_roi2 inp xi yi out xo yo w h = true).
  { unfold valid_roi2. rewrite !(valid_roi_ok m) by assumption. reflexivity. }
  assert (Hgr : is_gray inp && is_gray out = true) by (unfold is_gray; rewrite C1, C2; reflexivity).
  rewrite Hva, Hgr.
  destruct (is_cpu t || is_avx512 t || (w <? getSimdSize t)) eqn:E1.
  - destruct (is_avx t && b_avx b) eqn:E2; [|exact Hsc].
    apply andb_true_iff in E2 as [Et Eb].
    destruct (is_cpu sse || is_avx512 sse || (w <? getSimdSize sse)) eqn:E3; [exact Hsc|].
    destruct (OptimiseRoi w h [inp; out]) as [w' h'] eqn:Ho.
    rewrite (avx_sse b Hb Eb). cbn [is_avx512 negb andb]. apply Hk; auto; discriminate.
  - apply orb_false_iff in E1 as [E1 Ew]. apply orb_false_iff in E1 as [Et1 Et2].
    destruct (OptimiseRoi w h [inp; out]) as [w' h'] eqn:Ho.
    assert (t <> cpu) by (intros ->; discriminate Et1).
    assert (t <> avx512) by (intros ->; discriminate Et2).
    destruct Hu as [Hu|Hu]; [congruence|]. rewrite Hu, Et2. cbn [negb andb]. apply Hk; auto.
Qed.

Lemma SimdThreshold_dispatch th b t m inp xi yi out xo yo w h :
  SimdThreshold th b t m inp xi yi out xo yo w h
  = thr_dispatch b t m inp xi yi out xo yo w h (Threshold th m inp xi yi out xo yo w h)
      (fun t w h => thr_kernel t th m (row_ptr inp xi yi 1) (row_ptr out xo yo 1) (irs inp) (irs out) w h).
Proof. reflexivity. Qed.

Lemma SimdThreshold2_dispatch lo hi b t m inp xi yi out xo yo w h :
  SimdThreshold2 lo hi b t m inp xi yi out xo yo w h
  = thr_dispatch b t m inp xi yi out xo yo w h (Threshold2 lo hi m inp xi yi out xo yo w h)
      (fun t w h => rows1 (nlanes t) (v_thr2 t lo hi) (thr2_tail t lo hi) m
                      (row_ptr inp xi yi 1) (row_ptr out xo yo 1) (irs inp) (irs out) w h).
Proof. reflexivity. Qed.

Lemma SimdThreshold_writes th b t m inp xi yi out xo yo w h :
  usable b t -> build_ok b = true -> byte th ->
  wf m inp -> wf m out -> icc inp = 1 -> icc out = 1 ->
  roi_in inp xi yi w h -> roi_in out xo yo w h -> bytes m inp ->
  no_hazard out xo yo inp xi yi w h ->
  writes (SimdThreshold th b t m inp xi yi out xo yo w h) m out xo yo w h
    (fun i j c => thr_px th (pixel m inp (xi + i) (yi + j) c)).
Proof.
  intros Hu Hb Hth W1 Wo C1 C2 R1 Ro B1 Z1. rewrite SimdThreshold_dispatch.
  assert (C : icc inp = icc out) by congruence.
  apply thr_dispatch_writes; auto.
  - apply (pixelwise1_writes (fun a b => is_gray a && is_gray b) (fun a => Ok (thr_px th a))); auto.
    unfold is_gray. rewrite C1, C2. reflexivity.
  - intros t' w' h' Hn1 Hn2 Ho.
    rewrite <- (Z.mul_1_r w) in Ho. rewrite <- C2 in Ho.
    rewrite (row_ptr_origin m inp xi yi w h) by (auto; lia).
    rewrite (row_ptr_origin m out xo yo w h) by (auto; lia).
    rewrite <- C2. unfold thr_kernel.
    destruct (is_neon t' || (0 <? th)) eqn:Ec.
    + apply (rows1_writes (nlanes t') _ (thr_px th) (thr_px th)); auto.
      * apply nlanes_size; assumption.
      * apply v_thr_vec; assumption.
    + assert (th = 0).
      { apply orb_false_iff in Ec as [_ Ec]. apply Z.ltb_ge in Ec. unfold byte in Hth. lia. }
      subst th. destruct (nlanes_size t' Hn1) as [Hsz Hpos].
      destruct (fill_rows_writes m inp xi yi out xo yo w h w' h' (getSimdSize t')) as (m' & He & Hv & Hf);
        auto; [lia|].
      exists m'. split; [exact He|]. split; [|exact Hf].
      intros i j c Hin. rewrite Hv by assumption. unfold thr_px.
      destruct Hin as (Hi & Hj & Hc). destruct R1.
      assert (0 <= pixel m inp (xi + i) (yi + j) c < 256) by (apply B1; lia).
      destruct (Z.ltb_spec (pixel m inp (xi + i) (yi + j) c) 0); [lia|reflexivity].
Qed.

Lemma SimdThreshold2_writes lo hi b t m inp xi yi out xo yo w h :
  usable b t -> build_ok b = true -> byte lo -> byte hi -> lo <= hi ->
  wf m inp -> wf m out -> icc inp = 1 -> icc out = 1 ->
  roi_in inp xi yi w h -> roi_in out xo yo w h -> bytes m inp ->
  no_hazard out xo yo inp xi yi w h ->
  writes (SimdThreshold2 lo hi b t m inp xi yi out xo yo w h) m out xo yo w h
    (fun i j c => thr2_px lo hi (pixel m inp (xi + i) (yi + j) c)).
Proof.
  intros Hu Hb Hlo Hhi Hle W1 Wo C1 C2 R1 Ro B1 Z1. rewrite SimdThreshold2_dispatch.
  assert (C : icc inp = icc out) by congruence.
  apply thr_dispatch_writes; auto.
  - apply (pixelwise1_writes (fun a b => is_gray a && is_gray b && (lo <=? hi)) (fun a => Ok (thr2_px lo hi a))); auto.
    unfold is_gray. rewrite C1, C2. apply Z.leb_le in Hle. rewrite Hle. reflexivity.
  - intros t' w' h' Hn1 Hn2 Ho.
    rewrite <- (Z.mul_1_r w) in Ho. rewrite <- C2 in Ho.
    rewrite (row_ptr_origin m inp xi yi w h) by (auto; lia).
    rewrite (row_ptr_origin m out xo yo w h) by (auto; lia).
    rewrite <- C2.
    apply (rows1_writes (nlanes t') _ (thr2_px lo hi)); auto.
    + apply nlanes_size; assumption.
    + apply v_thr2_vec; assumption.
    + intros a Ha. apply thr2_tail_ok; [unfold byte in Hlo; lia|assumption].
Qed.
