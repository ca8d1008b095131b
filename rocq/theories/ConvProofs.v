(** Proofs about the conversion, channel and geometry functions. *)
From Coq Require Import ZArith List Bool Lia FinFun.
From Verif Require Import Base Image Spec BaseProofs ImgFun ImgLemmas ImgProofs.
Import ListNotations.
Open Scope Z_scope.

Ltac Zify.zify_post_hook ::= Z.div_mod_to_equations.

Definition zrange (n : Z) : list Z := map Z.of_nat (seq 0 (Z.to_nat n)).

Lemma zrange_length n : length (zrange n) = Z.to_nat n.
Proof. unfold zrange. rewrite map_length, seq_length. reflexivity. Qed.
Lemma zrange_in n c : In c (zrange n) <-> 0 <= c < n.
Proof.
  unfold zrange. rewrite in_map_iff. split.
  - intros (k & <- & Hk). apply in_seq in Hk. lia.
  - intros Hc. exists (Z.to_nat c). rewrite in_seq. lia.
Qed.
Lemma zrange_nth n k d : 0 <= k < n -> nth (Z.to_nat k) (zrange n) d = k.
Proof.
  intros Hk. unfold zrange. rewrite nth_indep with (d' := Z.of_nat 0).
  - rewrite map_nth, seq_nth by lia. lia.
  - rewrite map_length, seq_length. lia.
Qed.
Lemma zrange_nodup n : NoDup (zrange n).
Proof.
  unfold zrange. apply FinFun.Injective_map_NoDup; [|apply seq_NoDup].
  intros a b H. lia.
Qed.

Lemma sstep_gstep {E} srcs d (fn : list Z -> res E Z) m :
  sstep srcs d fn m = gstep srcs [d] (fun vs => bind (fn vs) (fun v => Ok [v])) m.
Proof.
  unfold sstep, gstep. apply bind_ext. intros vs _. rewrite bind_assoc.
  apply bind_ext. intros v _. cbn [bind stores]. symmetry. apply bind_ok_r.
Qed.

Lemma px_inb m im x y w h i j c :
  wf m im -> roi_in im x y w h -> inside w h (icc im) i j c ->
  inb m (px im (x + i) (y + j) c) = true.
Proof.
  intros Hw Hr (Hi & Hj & Hc). rewrite px_origin. apply (cell_inb m im x y w h); auto.
  apply join_index; lia.
Qed.

Lemma px_inj m im x y w h i j c i' j' c' :
  wf m im -> roi_in im x y w h -> inside w h (icc im) i j c -> inside w h (icc im) i' j' c' ->
  px im (x + i) (y + j) c = px im (x + i') (y + j') c' -> i = i' /\ j = j' /\ c = c'.
Proof.
  intros Hw Hr (Hi & Hj & Hc) (Hi' & Hj' & Hc') He. rewrite !px_origin in He.
  apply (cell_inj m im x y w h) in He; auto; try (apply join_index; lia).
  destruct He as [-> He]. assert (i = i') by nia. subst. repeat split; lia.
Qed.

(** The address list of one pixel. *)
Definition pxs (im : image) (x y : Z) : list ptr := map (px im x y) (zrange (icc im)).

(** One step per pixel of the output region; [pos j i] is the position written in step
    ([j],[i]) and [chs] the order in which its channels are written. *)
Lemma writes_pixels {E} (chs : list Z) m out xo yo w h H N (pos : Z -> Z -> Z * Z)
    (srcs : Z -> Z -> list ptr) (fn : Z -> Z -> list Z -> res E (list Z)) (val : Z -> Z -> Z -> Z) :
  let ok j i := 0 <= j < H /\ 0 <= i < N in
  wf m out -> roi_in out xo yo w h -> 0 <= H -> 0 <= N ->
  NoDup chs -> (forall c, In c chs <-> 0 <= c < icc out) ->
  (forall j i, ok j i -> 0 <= fst (pos j i) < w /\ 0 <= snd (pos j i) < h) ->
  (forall j i j' i', ok j i -> ok j' i' -> pos j i = pos j' i' -> j = j' /\ i = i') ->
  (forall x y, 0 <= x < w -> 0 <= y < h -> exists j i, ok j i /\ pos j i = (x, y)) ->
  (forall j i p, ok j i -> In p (srcs j i) -> inb m p = true) ->
  (forall j i, ok j i ->
     fn j i (map (get m) (srcs j i)) = Ok (map (val (fst (pos j i)) (snd (pos j i))) chs)) ->
  (forall j i j' i' c, ok j i -> ok j' i' -> 0 <= c < icc out ->
     In (px out (xo + fst (pos j i)) (yo + snd (pos j i)) c) (srcs j' i') -> j = j' /\ i = i') ->
  writes (iterM (Z.to_nat H) 0 (fun j => iterM (Z.to_nat N) 0 (fun i =>
            gstep (srcs j i) (map (px out (xo + fst (pos j i)) (yo + snd (pos j i))) chs) (fn j i))) m)
         m out xo yo w h val.
Proof.
  intros ok Wo Ro HH HN Hnd Hch Hpos Hinj Hsur Hsrc Hfn Hhaz.
  assert (Hin : forall j i q, ok j i ->
            In q (map (px out (xo + fst (pos j i)) (yo + snd (pos j i))) chs) ->
            exists c, 0 <= c < icc out /\ q = px out (xo + fst (pos j i)) (yo + snd (pos j i)) c).
  { intros j i q _ Hq. apply in_map_iff in Hq as (c & <- & Hc).
    apply Hch in Hc. eauto. }
  destruct (@scatter2 E srcs (fun j i => map (px out (xo + fst (pos j i)) (yo + snd (pos j i))) chs) fn
              (fun j i => map (val (fst (pos j i)) (snd (pos j i))) chs)
              (Z.to_nat H) (Z.to_nat N) m) as (m' & He & Hl & Hf & Hv).
  - intros j i Hok p Hp. apply (Hsrc j i); auto; unfold ok; lia.
  - intros j i Hok p Hp. assert (K : ok j i) by (unfold ok; lia).
    destruct (Hin j i p K Hp) as (c & Hc & ->).
    apply (px_inb m out xo yo w h); auto. destruct (Hpos j i K). unfold inside. lia.
  - intros j i Hok. assert (K : ok j i) by (unfold ok; lia). split; [apply Hfn; auto|].
    rewrite !map_length. reflexivity.
  - intros j i Hok. assert (K : ok j i) by (unfold ok; lia).
    apply FinFun.Injective_map_NoDup; auto. intros a b Hab. unfold px in Hab.
    injection Hab. lia.
  - intros j i j' i' p Hok Hok' Hp Hp'.
    assert (K : ok j i) by (unfold ok; lia). assert (K' : ok j' i') by (unfold ok; lia).
    destruct (Hin j i p K Hp) as (c & Hc & ->). destruct (Hin j' i' _ K' Hp') as (c' & Hc' & Heq).
    destruct (Hpos j i K), (Hpos j' i' K').
    apply (px_inj m out xo yo w h) in Heq; auto; try (unfold inside; lia).
    apply Hinj; auto. destruct (pos j i), (pos j' i'). cbn [fst snd] in *. f_equal; tauto.
  - intros j i j' i' p Hok Hok' Hp Hp'.
    assert (K : ok j i) by (unfold ok; lia). assert (K' : ok j' i') by (unfold ok; lia).
    destruct (Hin j i p K Hp) as (c & Hc & ->). eapply Hhaz; eauto.
  - exists m'. split; [exact He|]. split; [|split; [exact Hl|]].
    + intros x y c (Hx & Hy & Hc). destruct (Hsur x y Hx Hy) as (j & i & K & Ep).
      assert (K' : 0 <= j < Z.of_nat (Z.to_nat H) /\ 0 <= i < Z.of_nat (Z.to_nat N)) by (unfold ok in K; lia).
      apply Hch in Hc. destruct (In_nth chs c 0 Hc) as (k & Hk & Ek).
      specialize (Hv j i k (px out (xo + fst (pos j i)) (yo + snd (pos j i)) 0) K').
      cbn beta in Hv. rewrite map_length in Hv. specialize (Hv Hk).
      rewrite map_nth, Ek in Hv.
      unfold pixel. rewrite Ep in Hv. cbn [fst snd] in Hv. rewrite Hv.
      rewrite nth_indep with (d' := val x y 0) by (rewrite map_length; lia).
      rewrite map_nth, Ek. reflexivity.
    + intros p Hp. apply Hf. intros j i Hok Hpin.
      assert (K : ok j i) by (unfold ok; lia).
      destruct (Hin j i p K Hpin) as (c & Hc & ->). destruct (Hpos j i K).
      apply (Hp (fst (pos j i)) (snd (pos j i)) c); auto. unfold inside. lia.
Qed.

(** The usual order: step ([j],[i]) writes pixel ([i],[j]). *)
Lemma writes_raster_ch {E} chs m out xo yo w h (srcs : Z -> Z -> list ptr)
    (fn : Z -> Z -> list Z -> res E (list Z)) (val : Z -> Z -> Z -> Z) (r : res E mem) :
  let ok j i := 0 <= j < h /\ 0 <= i < w in
  wf m out -> roi_in out xo yo w h ->
  NoDup chs -> (forall c, In c chs <-> 0 <= c < icc out) ->
  r = iterM (Z.to_nat h) 0 (fun j => iterM (Z.to_nat w) 0 (fun i =>
            gstep (srcs j i) (map (px out (xo + i) (yo + j)) chs) (fn j i))) m ->
  (forall j i p, ok j i -> In p (srcs j i) -> inb m p = true) ->
  (forall j i, ok j i ->
     fn j i (map (get m) (srcs j i)) = Ok (map (val i j) chs)) ->
  (forall j i j' i' c, ok j i -> ok j' i' -> 0 <= c < icc out ->
     In (px out (xo + i) (yo + j) c) (srcs j' i') -> j = j' /\ i = i') ->
  writes r m out xo yo w h val.
Proof.
  intros ok Wo Ro Hnd Hch -> Hs Hf Hh.
  apply (@writes_pixels E chs m out xo yo w h h w (fun j i => (i, j)) srcs fn val); auto; cbn [fst snd].
  - destruct Ro; lia.
  - destruct Ro; lia.
  - intros j i (A & B). auto.
  - intros j i j' i' _ _ He. injection He. auto.
  - intros x y Hx Hy. exists y, x. auto.
Qed.

Lemma writes_raster {E} m out xo yo w h (srcs : Z -> Z -> list ptr)
    (fn : Z -> Z -> list Z -> res E (list Z)) (val : Z -> Z -> Z -> Z) (r : res E mem) :
  let ok j i := 0 <= j < h /\ 0 <= i < w in
  wf m out -> roi_in out xo yo w h ->
  r = iterM (Z.to_nat h) 0 (fun j => iterM (Z.to_nat w) 0 (fun i =>
            gstep (srcs j i) (pxs out (xo + i) (yo + j)) (fn j i))) m ->
  (forall j i p, ok j i -> In p (srcs j i) -> inb m p = true) ->
  (forall j i, ok j i ->
     fn j i (map (get m) (srcs j i)) = Ok (map (val i j) (zrange (icc out)))) ->
  (forall j i j' i' c, ok j i -> ok j' i' -> 0 <= c < icc out ->
     In (px out (xo + i) (yo + j) c) (srcs j' i') -> j = j' /\ i = i') ->
  writes r m out xo yo w h val.
Proof.
  intros ok Wo Ro Hr Hs Hf Hh.
  apply (@writes_raster_ch E (zrange (icc out)) m out xo yo w h srcs fn val); auto.
  - apply zrange_nodup.
  - intros c. apply zrange_in.
Qed.

Lemma map_zrange1 {A} (f : Z -> A) : map f (zrange 1) = [f 0].
Proof. reflexivity. Qed.
Lemma map_zrange3 {A} (f : Z -> A) : map f (zrange 3) = [f 0; f 1; f 2].
Proof. reflexivity. Qed.
Lemma map_zrange4 {A} (f : Z -> A) : map f (zrange 4) = [f 0; f 1; f 2; f 3].
Proof. reflexivity. Qed.

(** Address of pixel ([x]+[i],[y]+[j]) as the loops compute it. *)
Lemma px_cell im x y i j c cc : icc im = cc ->
  padd (padd (origin im x y cc) (j * irs im + i * cc)) c = px im (x + i) (y + j) c.
Proof. intros <-. rewrite px_origin, padd_padd. f_equal. lia. Qed.
Lemma px_cell_pre im x y i j c cc : icc im = cc ->
  padd (padd (origin im x y cc) c) (j * irs im + i * cc) = px im (x + i) (y + j) c.
Proof. intros <-. rewrite px_origin, padd_padd. f_equal. lia. Qed.
Lemma px_cell0 im x y i j cc : icc im = cc ->
  padd (origin im x y cc) (j * irs im + i * cc) = px im (x + i) (y + j) 0.
Proof. intros E. rewrite <- (px_cell im x y i j 0 cc E), padd_0. reflexivity. Qed.

Lemma disjoint_px a xa ya wa ha b xb yb wb hb i j c i' j' c' :
  disjoint a xa ya wa ha b xb yb wb hb ->
  inside wa ha (icc a) i j c -> inside wb hb (icc b) i' j' c' ->
  px a (xa + i) (ya + j) c = px b (xb + i') (yb + j') c' -> False.
Proof. intros D H1 H2 He. apply (D i j c i' j' c'); auto. Qed.

(** ** Bit depth *)

Lemma ConvertTo16Bit_writes m inp xi yi out xo yo w h :
  wf m inp -> wf m out -> icc inp = icc out ->
  roi_in inp xi yi w h -> roi_in out xo yo w h ->
  (xi = 0 \/ icc inp = 1) ->
  no_hazard out xo yo inp xi yi w h ->
  writes (ConvertTo16Bit m inp xi yi out xo yo w h) m out xo yo w h
    (fun i j c => u16 (Z.shiftl (pixel m inp (xi + i) (yi + j) c) 8)).
Proof.
  intros W1 Wo C1 R1 Ro Hx Z1.
  pose proof (wf_cc_pos _ _ Wo) as Hcc.
  assert (Hw0 : 0 < w) by apply Ro. assert (Hh0 : 0 < h) by apply Ro.
  unfold ConvertTo16Bit.
  rewrite (valid_roi_ok m) by assumption. rewrite (valid_roi_ok m) by assumption.
  rewrite C1, Z.eqb_refl.
  rewrite (row_ptr_origin m inp xi yi w h) by (auto; lia).
  rewrite (row_ptr_origin m out xo yo w h) by (auto; lia).
  rewrite (u32_width m out xo w) by (auto; first [apply Ro|lia]).
  assert (Eo : origin inp xi yi 1 = origin inp xi yi (icc inp)).
  { unfold origin. destruct Hx as [->| ->]; f_equal; lia. }
  rewrite Eo.
  set (f := fun a => Ok (u16 (Z.shiftl a 8)) : res mem Z).
  match goal with |- writes ?r _ _ _ _ _ _ _ =>
    replace r with (iterM (Z.to_nat h) 0 (fun j => iterM (Z.to_nat (w * icc out)) 0 (fun i =>
            sstep [padd (origin inp xi yi (icc inp)) (j * irs inp + i)]
                  (padd (origin out xo yo (icc out)) (j * irs out + i))
                  (fun vs => f (nth 0 vs 0)))) m)
  end.
  { apply samples1_writes; auto. }
  symmetry. etransitivity; [apply (walk2_plain (w * icc out)); try reflexivity; try lia; try nia|].
  - apply (wf_rs_pos _ _ Wo).
  - apply (roi_rows_small m out xo yo w h); assumption.
  - apply iterM_ext. intros j s _. apply iterM_ext. intros i t _.
    unfold f, sstep, c0, c1, cells. cbn [zip3 map nth fst snd loads].
    rewrite !Z.mul_1_r, !bind_assoc. apply bind_ext. intros a _. reflexivity.
Qed.

Lemma ConvertTo8Bit_writes m inp xi yi out xo yo w h :
  wf m inp -> wf m out -> icc inp = icc out ->
  roi_in inp xi yi w h -> roi_in out xo yo w h ->
  (xi = 0 \/ icc inp = 1) ->
  no_hazard out xo yo inp xi yi w h ->
  writes (ConvertTo8Bit m inp xi yi out xo yo w h) m out xo yo w h
    (fun i j c => u8 (Z.shiftr (pixel m inp (xi + i) (yi + j) c) 8)).
Proof.
  intros W1 Wo C1 R1 Ro Hx Z1.
  pose proof (wf_cc_pos _ _ Wo) as Hcc.
  assert (Hw0 : 0 < w) by apply Ro. assert (Hh0 : 0 < h) by apply Ro.
  unfold ConvertTo8Bit.
  rewrite (valid_roi_ok m) by assumption. rewrite (valid_roi_ok m) by assumption.
  rewrite C1, Z.eqb_refl.
  rewrite (row_ptr_origin m inp xi yi w h) by (auto; lia).
  rewrite (row_ptr_origin m out xo yo w h) by (auto; lia).
  rewrite (u32_width m out xo w) by (auto; first [apply Ro|lia]).
  assert (Eo : origin inp xi yi 1 = origin inp xi yi (icc inp)).
  { unfold origin. destruct Hx as [->| ->]; f_equal; lia. }
  rewrite Eo.
  set (f := fun a => Ok (u8 (Z.shiftr a 8)) : res mem Z).
  match goal with |- writes ?r _ _ _ _ _ _ _ =>
    replace r with (iterM (Z.to_nat h) 0 (fun j => iterM (Z.to_nat (w * icc out)) 0 (fun i =>
            sstep [padd (origin inp xi yi (icc inp)) (j * irs inp + i)]
                  (padd (origin out xo yo (icc out)) (j * irs out + i))
                  (fun vs => f (nth 0 vs 0)))) m)
  end.
  { apply samples1_writes; auto. }
  symmetry. etransitivity; [apply (walk2_plain (w * icc out)); try reflexivity; try lia; try nia|].
  - apply (wf_rs_pos _ _ Wo).
  - apply (roi_rows_small m out xo yo w h); assumption.
  - apply iterM_ext. intros j s _. apply iterM_ext. intros i t _.
    unfold f, sstep, c0, c1, cells. cbn [zip3 map nth fst snd loads].
    rewrite !Z.mul_1_r, !bind_assoc. apply bind_ext. intros a _. reflexivity.
Qed.

(** ** Colour *)

Lemma gray_true im : icc im = 1 -> is_gray im = true.
Proof. intros E. unfold is_gray. rewrite E. reflexivity. Qed.
Lemma rgb_true im : icc im = 3 -> is_rgb im = true.
Proof. intros E. unfold is_rgb. rewrite E. reflexivity. Qed.
Lemma rgba_true im : icc im = 4 -> is_rgba im = true.
Proof. intros E. unfold is_rgba. rewrite E. reflexivity. Qed.

Ltac prep2 m inp xi yi out xo yo w h :=
  unfold valid_roi2, valid_roi3;
  rewrite ?(valid_roi_ok m inp xi yi w h) by assumption;
  rewrite ?(valid_roi_ok m out xo yo w h) by assumption;
  cbn [andb];
  rewrite ?(row_ptr_origin m inp xi yi w h) by (auto; lia);
  rewrite ?(row_ptr_origin m out xo yo w h) by (auto; lia).

Lemma ConvertToGrayScale_writes m inp xi yi out xo yo w h :
  wf m inp -> wf m out -> icc inp = 3 -> icc out = 1 ->
  roi_in inp xi yi w h -> roi_in out xo yo w h ->
  disjoint out xo yo w h inp xi yi w h ->
  writes (ConvertToGrayScale m inp xi yi out xo yo w h) m out xo yo w h
    (fun i j c => u8 ((pixel m inp (xi + i) (yi + j) 0 + pixel m inp (xi + i) (yi + j) 1
                       + pixel m inp (xi + i) (yi + j) 2) / 3)).
Proof.
  intros W1 Wo C1 Co R1 Ro D.
  assert (Hw0 : 0 < w) by apply Ro. assert (Hh0 : 0 < h) by apply Ro.
  unfold ConvertToGrayScale, RGB. rewrite gray_true by assumption.
  rewrite C1. cbn [Z.eqb]. change (3 =? GRAY_SCALE) with false. cbv iota.
  prep2 m inp xi yi out xo yo w h.
  pose proof (wf_rs_pos _ _ Wo). pose proof (roi_rows_small m out xo yo w h Wo Ro).
  eapply (@writes_raster mem m out xo yo w h
            (fun j i => [px inp (xi + i) (yi + j) 0; px inp (xi + i) (yi + j) 1; px inp (xi + i) (yi + j) 2])
            (fun j i vs => Ok [u8 ((nth 0 vs 0 + nth 1 vs 0 + nth 2 vs 0) / 3)])); auto.
  - etransitivity; [apply (walk2_plain w); try reflexivity; try lia|].
    apply iterM_ext. intros j s _. apply iterM_ext. intros i t _.
    unfold gstep, c0, c1, cells, pxs. cbn [zip3 map nth fst snd loads].
    rewrite Co, map_zrange1. rewrite !(px_cell inp) by assumption.
    rewrite (px_cell0 inp) by assumption. rewrite (px_cell0 out) by assumption.
    rewrite !bind_assoc. apply bind_ext. intros a _. rewrite !bind_assoc. apply bind_ext. intros b _.
    rewrite !bind_assoc. apply bind_ext. intros c _. cbn [bind nth stores]. symmetry. apply bind_ok_r.
  - intros j i p (Hj & Hi) Hp.
    destruct Hp as [<-|[<-|[<-|[]]]]; apply (px_inb m inp xi yi w h); auto; unfold inside; lia.
  - intros j i (Hj & Hi). rewrite Co. reflexivity.
  - intros j i j' i' c (Hj & Hi) (Hj' & Hi') Hc Hp. exfalso.
    destruct Hp as [Hp|[Hp|[Hp|[]]]]; symmetry in Hp;
      eapply (disjoint_px _ _ _ _ _ _ _ _ _ _ _ _ _ _ _ _ D); eauto; unfold inside; lia.
Qed.

Lemma ConvertToRgb_writes m inp xi yi out xo yo w h :
  wf m inp -> wf m out -> icc inp = 1 -> icc out = 3 ->
  roi_in inp xi yi w h -> roi_in out xo yo w h ->
  disjoint out xo yo w h inp xi yi w h ->
  writes (ConvertToRgb m inp xi yi out xo yo w h) m out xo yo w h
    (fun i j c => pixel m inp (xi + i) (yi + j) 0).
Proof.
  intros W1 Wo C1 Co R1 Ro D.
  assert (Hw0 : 0 < w) by apply Ro. assert (Hh0 : 0 < h) by apply Ro.
  unfold ConvertToRgb, RGB. rewrite rgb_true by assumption.
  rewrite C1. change (1 =? 3) with false. cbv iota.
  prep2 m inp xi yi out xo yo w h.
  pose proof (u32_width m out xo w Wo ltac:(apply Ro) ltac:(lia) ltac:(apply Ro)) as Hu.
  rewrite Co in Hu. rewrite Hu.
  pose proof (wf_rs_pos _ _ Wo). pose proof (roi_rows_small m out xo yo w h Wo Ro).
  eapply (@writes_raster mem m out xo yo w h
            (fun j i => [px inp (xi + i) (yi + j) 0])
            (fun j i vs => Ok [nth 0 vs 0; nth 0 vs 0; nth 0 vs 0])); auto.
  - etransitivity; [apply (walk2_plain w); try reflexivity; try lia|].
    apply iterM_ext. intros j s _. apply iterM_ext. intros i t _.
    unfold gstep, c0, c1, cells, pxs, memset.
    change (Z.to_nat 3) with 3%nat. cbn [zip3 map nth fst snd loads span repeat].
    rewrite Co, map_zrange3. rewrite <- !(px_cell out xo yo _ _ _ 3) by assumption. rewrite !padd_padd.
    rewrite (px_cell0 inp) by assumption.
    rewrite !bind_assoc. apply bind_ext. intros a _. cbn [bind nth].
    repeat (first [lia|f_equal]).
  - intros j i p (Hj & Hi) Hp.
    destruct Hp as [<-|[]]; apply (px_inb m inp xi yi w h); auto; unfold inside; lia.
  - intros j i (Hj & Hi). rewrite Co. reflexivity.
  - intros j i j' i' c (Hj & Hi) (Hj' & Hi') Hc Hp. exfalso.
    destruct Hp as [Hp|[]]; symmetry in Hp;
      eapply (disjoint_px _ _ _ _ _ _ _ _ _ _ _ _ _ _ _ _ D); eauto; unfold inside; lia.
Qed.

(** Same colour count: conversion is a copy. *)
Lemma ConvertToGrayScale_copy m inp xi yi out xo yo w h :
  wf m inp -> wf m out -> icc inp = 1 -> icc out = 1 ->
  roi_in inp xi yi w h -> roi_in out xo yo w h ->
  disjoint out xo yo w h inp xi yi w h ->
  writes (ConvertToGrayScale m inp xi yi out xo yo w h) m out xo yo w h
    (fun i j c => pixel m inp (xi + i) (yi + j) c).
Proof.
  intros W1 Wo C1 Co R1 Ro D. unfold ConvertToGrayScale. rewrite gray_true by assumption.
  rewrite C1. change (1 =? GRAY_SCALE) with true. cbv iota.
  unfold valid_roi2. rewrite !(valid_roi_ok m) by assumption. cbn [andb].
  apply Copy_writes; auto; congruence.
Qed.
Lemma ConvertToRgb_copy m inp xi yi out xo yo w h :
  wf m inp -> wf m out -> icc inp = 3 -> icc out = 3 ->
  roi_in inp xi yi w h -> roi_in out xo yo w h ->
  disjoint out xo yo w h inp xi yi w h ->
  writes (ConvertToRgb m inp xi yi out xo yo w h) m out xo yo w h
    (fun i j c => pixel m inp (xi + i) (yi + j) c).
Proof.
  intros W1 Wo C1 Co R1 Ro D. unfold ConvertToRgb. rewrite rgb_true by assumption.
  rewrite C1. change (3 =? RGB) with true. cbv iota.
  unfold valid_roi2. rewrite !(valid_roi_ok m) by assumption. cbn [andb].
  apply Copy_writes; auto; congruence.
Qed.

(** ** Channels *)

Lemma ExtractChannel_writes m inp xi yi out xo yo w h ch :
  wf m inp -> wf m out -> icc out = 1 -> 0 <= ch < icc inp ->
  roi_in inp xi yi w h -> roi_in out xo yo w h ->
  (forall i j i' j', inside w h 1 i j 0 -> inside w h 1 i' j' 0 ->
     px out (xo + i) (yo + j) 0 = px inp (xi + i') (yi + j') ch -> i = i' /\ j = j') ->
  writes (ExtractChannel m inp xi yi out xo yo w h ch) m out xo yo w h
    (fun i j c => pixel m inp (xi + i) (yi + j) ch).
Proof.
  intros W1 Wo Co Hch R1 Ro D.
  assert (Hw0 : 0 < w) by apply Ro. assert (Hh0 : 0 < h) by apply Ro.
  unfold ExtractChannel. rewrite gray_true by assumption.
  destruct (Z.ltb_spec ch (icc inp)); [|lia].
  prep2 m inp xi yi out xo yo w h.
  pose proof (wf_rs_pos _ _ Wo). pose proof (roi_rows_small m out xo yo w h Wo Ro).
  eapply (@writes_raster mem m out xo yo w h
            (fun j i => [px inp (xi + i) (yi + j) ch]) (fun j i vs => Ok [nth 0 vs 0])); auto.
  - etransitivity; [apply (walk2_plain w); try reflexivity; try lia|].
    apply iterM_ext. intros j s _. apply iterM_ext. intros i t _.
    unfold gstep, c0, c1, cells, pxs. cbn [zip3 map nth fst snd loads].
    rewrite Co, map_zrange1. rewrite (px_cell0 out) by assumption.
    rewrite (px_cell_pre inp) by reflexivity.
    rewrite !bind_assoc. apply bind_ext. intros a _. cbn [bind nth stores]. symmetry. apply bind_ok_r.
  - intros j i p (Hj & Hi) [<-|[]]. apply (px_inb m inp xi yi w h); auto; unfold inside; lia.
  - intros j i (Hj & Hi). rewrite Co. reflexivity.
  - intros j i j' i' c (Hj & Hi) (Hj' & Hi') Hc [Hp|[]]; symmetry in Hp.
    assert (c = 0) by lia. subst c.
    destruct (D i j i' j'); auto; unfold inside; lia.
Qed.

Lemma Merge_writes m in1 x1 y1 in2 x2 y2 in3 x3 y3 out xo yo w h :
  wf m in1 -> wf m in2 -> wf m in3 -> wf m out ->
  icc in1 = 1 -> icc in2 = 1 -> icc in3 = 1 -> icc out = 3 ->
  roi_in in1 x1 y1 w h -> roi_in in2 x2 y2 w h -> roi_in in3 x3 y3 w h -> roi_in out xo yo w h ->
  disjoint out xo yo w h in1 x1 y1 w h -> disjoint out xo yo w h in2 x2 y2 w h ->
  disjoint out xo yo w h in3 x3 y3 w h ->
  writes (Merge m in1 x1 y1 in2 x2 y2 in3 x3 y3 out xo yo w h) m out xo yo w h
    (fun i j c => if c =? 0 then pixel m in1 (x1 + i) (y1 + j) 0
                  else if c =? 1 then pixel m in2 (x2 + i) (y2 + j) 0
                  else pixel m in3 (x3 + i) (y3 + j) 0).
Proof.
  intros W1 W2 W3 Wo C1 C2 C3 Co R1 R2 R3 Ro D1 D2 D3.
  assert (Hw0 : 0 < w) by apply Ro. assert (Hh0 : 0 < h) by apply Ro.
  unfold Merge, valid_roi3, valid_roi2, RGB.
  rewrite !(valid_roi_ok m) by assumption.
  rewrite !gray_true, rgb_true by assumption. cbn [andb].
  rewrite (row_ptr_origin m in1 x1 y1 w h) by (auto; lia).
  rewrite (row_ptr_origin m in2 x2 y2 w h) by (auto; lia).
  rewrite (row_ptr_origin m in3 x3 y3 w h) by (auto; lia).
  rewrite (row_ptr_origin m out xo yo w h) by (auto; lia).
  pose proof (u32_width m out xo w Wo ltac:(apply Ro) ltac:(lia) ltac:(apply Ro)) as Hu.
  rewrite Co in Hu. rewrite Hu.
  pose proof (wf_rs_pos _ _ Wo). pose proof (roi_rows_small m out xo yo w h Wo Ro).
  set (srcs := fun j i => [px in1 (x1 + i) (y1 + j) 0; px in2 (x2 + i) (y2 + j) 0; px in3 (x3 + i) (y3 + j) 0]).
  assert (Hd : forall j i j' i' c, 0 <= j < h /\ 0 <= i < w -> 0 <= j' < h /\ 0 <= i' < w -> 0 <= c < 3 ->
            ~ In (px out (xo + i) (yo + j) c) (srcs j' i')).
  { intros j i j' i' c (Hj & Hi) (Hj' & Hi') Hc Hp.
    destruct Hp as [Hp|[Hp|[Hp|[]]]]; symmetry in Hp.
    - eapply (disjoint_px _ _ _ _ _ _ _ _ _ _ _ _ _ _ _ _ D1); eauto; unfold inside; lia.
    - eapply (disjoint_px _ _ _ _ _ _ _ _ _ _ _ _ _ _ _ _ D2); eauto; unfold inside; lia.
    - eapply (disjoint_px _ _ _ _ _ _ _ _ _ _ _ _ _ _ _ _ D3); eauto; unfold inside; lia. }
  eapply (@writes_raster mem m out xo yo w h srcs (fun j i vs => Ok vs)); auto.
  - etransitivity; [apply (walk2_plain w); try reflexivity; try lia|].
    apply iterM_ext. intros j s Hj. apply iterM_ext. intros i t Hi.
    unfold c0, c1, c2, c3, cells, pxs. cbn [zip3 map nth fst snd].
    rewrite Co, map_zrange3. rewrite !(px_cell out) by assumption.
    rewrite (px_cell0 out), (px_cell0 in1), (px_cell0 in2), (px_cell0 in3) by assumption.
    rewrite moves_gstep'; [reflexivity|].
    intros l1 d s' l2 El Hin.
    assert (A : In s' (srcs j i)).
    { change (srcs j i) with (map snd [(px out (xo + i) (yo + j) 0, px in1 (x1 + i) (y1 + j) 0);
        (px out (xo + i) (yo + j) 1, px in2 (x2 + i) (y2 + j) 0);
        (px out (xo + i) (yo + j) 2, px in3 (x3 + i) (y3 + j) 0)]).
      rewrite El, map_app. apply in_or_app. simpl; auto. }
    assert (B : In s' (map (px out (xo + i) (yo + j)) [0; 1; 2])).
    { change (map (px out (xo + i) (yo + j)) [0; 1; 2])
        with (map fst [(px out (xo + i) (yo + j) 0, px in1 (x1 + i) (y1 + j) 0);
        (px out (xo + i) (yo + j) 1, px in2 (x2 + i) (y2 + j) 0);
        (px out (xo + i) (yo + j) 2, px in3 (x3 + i) (y3 + j) 0)]).
      rewrite El, map_app. apply in_or_app. auto. }
    apply in_map_iff in B as (c & <- & Hc). simpl in Hc.
    apply (Hd j i j i c); auto; lia.
  - intros j i p (Hj & Hi) Hp. destruct Hp as [<-|[<-|[<-|[]]]].
    + apply (px_inb m in1 x1 y1 w h); auto; unfold inside; lia.
    + apply (px_inb m in2 x2 y2 w h); auto; unfold inside; lia.
    + apply (px_inb m in3 x3 y3 w h); auto; unfold inside; lia.
  - intros j i (Hj & Hi). rewrite Co. reflexivity.
  - intros j i j' i' c K K' Hc Hp. exfalso. rewrite Co in Hc. exact (Hd j i j' i' c K K' Hc Hp).
Qed.

(** A list of moves whose sources and destinations are disjoint sets. *)
Lemma moves_gstep_sep {E} (l : list (ptr * ptr)) (m : mem) :
  (forall p, In p (map fst l) -> In p (map snd l) -> False) ->
  @moves E m l = gstep (map snd l) (map fst l) (fun vs => Ok vs) m.
Proof.
  intros H. apply moves_gstep'. intros l1 d s l2 -> Hin. apply (H s); rewrite map_app; apply in_or_app.
  - auto.
  - simpl; auto.
Qed.

Lemma RgbToBgr_writes m inp xi yi out xo yo w h :
  wf m inp -> wf m out -> icc inp = 3 -> icc out = 3 ->
  roi_in inp xi yi w h -> roi_in out xo yo w h ->
  disjoint out xo yo w h inp xi yi w h ->
  writes (RgbToBgr m inp xi yi out xo yo w h) m out xo yo w h
    (fun i j c => pixel m inp (xi + i) (yi + j) (2 - c)).
Proof.
  intros W1 Wo C1 Co R1 Ro D.
  assert (Hw0 : 0 < w) by apply Ro. assert (Hh0 : 0 < h) by apply Ro.
  unfold RgbToBgr, RGB. rewrite !rgb_true by assumption.
  prep2 m inp xi yi out xo yo w h.
  pose proof (u32_width m out xo w Wo ltac:(apply Ro) ltac:(lia) ltac:(apply Ro)) as Hu.
  rewrite Co in Hu. rewrite Hu.
  destruct (OptimiseRoi (w * 3) h [inp; out]) as [w' h'] eqn:Ho.
  pose proof (wf_rs_pos _ _ Wo). pose proof (roi_rows_small m out xo yo w h Wo Ro).
  set (srcs := fun j i => [px inp (xi + i) (yi + j) 0; px inp (xi + i) (yi + j) 1; px inp (xi + i) (yi + j) 2]).
  assert (Hd : forall j i j' i' c, 0 <= j < h /\ 0 <= i < w -> 0 <= j' < h /\ 0 <= i' < w -> 0 <= c < 3 ->
            ~ In (px out (xo + i) (yo + j) c) (srcs j' i')).
  { intros j i j' i' c (Hj & Hi) (Hj' & Hi') Hc Hp.
    destruct Hp as [Hp|[Hp|[Hp|[]]]]; symmetry in Hp;
    eapply (disjoint_px _ _ _ _ _ _ _ _ _ _ _ _ _ _ _ _ D); eauto; unfold inside; lia. }
  eapply (@writes_raster_ch mem [2; 1; 0] m out xo yo w h srcs (fun j i vs => Ok vs)); auto.
  - repeat constructor; simpl; lia.
  - intros c. simpl. lia.
  - etransitivity; [apply (walk2_opt w 3 h [inp; out] w' h' (origin out xo yo 3) [origin inp xi yi 3]
                            (irs out) [irs inp]); try reflexivity; try lia; auto|].
    + intros x [<-|[<-|[]]]; [exists out|exists inp]; simpl; auto.
    + apply iterM_ext. intros j s Hj. apply iterM_ext. intros i t Hi.
      unfold c0, c1, cells. cbn [length repeat zip3 map nth fst snd].
      rewrite !(px_cell out), !(px_cell inp) by assumption.
      rewrite (px_cell0 out), (px_cell0 inp) by assumption.
      rewrite moves_gstep_sep; [reflexivity|].
      intros p A B. change (In p (srcs j i)) in B.
      change (In p (map (px out (xo + i) (yo + j)) [2; 1; 0])) in A.
      apply in_map_iff in A as (c & <- & Hc). simpl in Hc.
      apply (Hd j i j i c); auto; lia.
  - intros j i p (Hj & Hi) Hp. destruct Hp as [<-|[<-|[<-|[]]]];
      apply (px_inb m inp xi yi w h); auto; unfold inside; lia.
  - intros j i j' i' c K K' Hc Hp. exfalso. rewrite Co in Hc. exact (Hd j i j' i' c K K' Hc Hp).
Qed.

Lemma RgbaToRgb_writes m inp xi yi out xo yo w h :
  wf m inp -> wf m out -> icc inp = 4 -> icc out = 3 ->
  roi_in inp xi yi w h -> roi_in out xo yo w h ->
  disjoint out xo yo w h inp xi yi w h ->
  writes (RgbaToRgb m inp xi yi out xo yo w h) m out xo yo w h
    (fun i j c => pixel m inp (xi + i) (yi + j) c).
Proof.
  intros W1 Wo C1 Co R1 Ro D.
  assert (Hw0 : 0 < w) by apply Ro. assert (Hh0 : 0 < h) by apply Ro.
  unfold RgbaToRgb, RGB, RGBA. rewrite rgb_true, rgba_true by assumption.
  prep2 m inp xi yi out xo yo w h.
  pose proof (u32_width m out xo w Wo ltac:(apply Ro) ltac:(lia) ltac:(apply Ro)) as Hu.
  rewrite Co in Hu. rewrite Hu.
  pose proof (wf_rs_pos _ _ Wo). pose proof (roi_rows_small m out xo yo w h Wo Ro).
  set (srcs := fun j i => [px inp (xi + i) (yi + j) 0; px inp (xi + i) (yi + j) 1; px inp (xi + i) (yi + j) 2]).
  assert (Hd : forall j i j' i' c, 0 <= j < h /\ 0 <= i < w -> 0 <= j' < h /\ 0 <= i' < w -> 0 <= c < 3 ->
            ~ In (px out (xo + i) (yo + j) c) (srcs j' i')).
  { intros j i j' i' c (Hj & Hi) (Hj' & Hi') Hc Hp.
    destruct Hp as [Hp|[Hp|[Hp|[]]]]; symmetry in Hp;
    eapply (disjoint_px _ _ _ _ _ _ _ _ _ _ _ _ _ _ _ _ D); eauto; unfold inside; lia. }
  eapply (@writes_raster mem m out xo yo w h srcs (fun j i vs => Ok vs)); auto.
  - etransitivity; [apply (walk2_plain w); try reflexivity; try lia|].
    apply iterM_ext. intros j s Hj. apply iterM_ext. intros i t Hi.
    unfold c0, c1, cells, pxs. cbn [zip3 map nth fst snd].
    rewrite Co, map_zrange3.
    rewrite !(px_cell out), !(px_cell inp) by assumption.
    rewrite (px_cell0 out), (px_cell0 inp) by assumption.
    rewrite moves_gstep_sep; [reflexivity|].
    intros p A B. change (In p (srcs j i)) in B.
    change (In p (map (px out (xo + i) (yo + j)) [0; 1; 2])) in A.
    apply in_map_iff in A as (c & <- & Hc). simpl in Hc.
    apply (Hd j i j i c); auto; lia.
  - intros j i p (Hj & Hi) Hp. destruct Hp as [<-|[<-|[<-|[]]]];
      apply (px_inb m inp xi yi w h); auto; unfold inside; lia.
  - intros j i (Hj & Hi). rewrite Co. reflexivity.
  - intros j i j' i' c K K' Hc Hp. exfalso. rewrite Co in Hc. exact (Hd j i j' i' c K K' Hc Hp).
Qed.

Lemma stores_app {E} ps : forall qs m vs ws, length ps = length vs ->
  @stores E m (ps ++ qs) (vs ++ ws) = bind (stores m ps vs) (fun m' => stores m' qs ws).
Proof.
  induction ps as [|p ps IH]; intros qs m [|v vs] ws Hl; simpl in *; try lia; auto.
  rewrite bind_assoc. apply bind_ext. intros m' _. apply IH. lia.
Qed.
Lemma loads_length {E} ps : forall m vs, @loads E m ps = Ok vs -> length vs = length ps.
Proof.
  intros m vs H. destruct (@loads_cases E m ps) as [[Hl _]|[Hl _]]; rewrite Hl in H; try discriminate.
  injection H as <-. apply map_length.
Qed.

Lemma RgbToRgba_writes m inp xi yi out xo yo w h :
  wf m inp -> wf m out -> icc inp = 3 -> icc out = 4 ->
  roi_in inp xi yi w h -> roi_in out xo yo w h ->
  disjoint out xo yo w h inp xi yi w h ->
  writes (RgbToRgba m inp xi yi out xo yo w h) m out xo yo w h
    (fun i j c => if c =? 3 then 255 else pixel m inp (xi + i) (yi + j) c).
Proof.
  intros W1 Wo C1 Co R1 Ro D.
  assert (Hw0 : 0 < w) by apply Ro. assert (Hh0 : 0 < h) by apply Ro.
  unfold RgbToRgba, RGB, RGBA. rewrite rgb_true, rgba_true by assumption.
  prep2 m inp xi yi out xo yo w h.
  pose proof (u32_width m out xo w Wo ltac:(apply Ro) ltac:(lia) ltac:(apply Ro)) as Hu.
  rewrite Co in Hu. rewrite Hu.
  pose proof (wf_rs_pos _ _ Wo). pose proof (roi_rows_small m out xo yo w h Wo Ro).
  set (srcs := fun j i => [px inp (xi + i) (yi + j) 0; px inp (xi + i) (yi + j) 1; px inp (xi + i) (yi + j) 2]).
  assert (Hd : forall j i j' i' c, 0 <= j < h /\ 0 <= i < w -> 0 <= j' < h /\ 0 <= i' < w -> 0 <= c < 4 ->
            ~ In (px out (xo + i) (yo + j) c) (srcs j' i')).
  { intros j i j' i' c (Hj & Hi) (Hj' & Hi') Hc Hp.
    destruct Hp as [Hp|[Hp|[Hp|[]]]]; symmetry in Hp;
    eapply (disjoint_px _ _ _ _ _ _ _ _ _ _ _ _ _ _ _ _ D); eauto; unfold inside; lia. }
  eapply (@writes_raster mem m out xo yo w h srcs (fun j i vs => Ok (vs ++ [255]))); auto.
  - etransitivity; [apply (walk2_plain w); try reflexivity; try lia|].
    apply iterM_ext. intros j s Hj. apply iterM_ext. intros i t Hi.
    unfold c0, c1, cells, pxs. cbn [zip3 map nth fst snd].
    rewrite Co, map_zrange4.
    rewrite !(px_cell out), !(px_cell inp) by assumption.
    rewrite (px_cell0 out), (px_cell0 inp) by assumption.
    rewrite moves_gstep_sep.
    + unfold gstep. cbn [map fst snd]. rewrite !bind_assoc. apply bind_ext. intros vs Hvs.
      apply loads_length in Hvs. cbn [bind].
      change [px out (xo + i) (yo + j) 0; px out (xo + i) (yo + j) 1; px out (xo + i) (yo + j) 2; px out (xo + i) (yo + j) 3]
        with ([px out (xo + i) (yo + j) 0; px out (xo + i) (yo + j) 1; px out (xo + i) (yo + j) 2] ++ [px out (xo + i) (yo + j) 3]).
      rewrite stores_app by (rewrite Hvs; reflexivity).
      apply bind_ext. intros m' _. cbn [stores]. symmetry. apply bind_ok_r.
    + intros p A B. change (In p (srcs j i)) in B.
      change (In p (map (px out (xo + i) (yo + j)) [0; 1; 2])) in A.
      apply in_map_iff in A as (c & <- & Hc). simpl in Hc.
      apply (Hd j i j i c); auto; lia.
  - intros j i p (Hj & Hi) Hp. destruct Hp as [<-|[<-|[<-|[]]]];
      apply (px_inb m inp xi yi w h); auto; unfold inside; lia.
  - intros j i (Hj & Hi). rewrite Co. reflexivity.
  - intros j i j' i' c K K' Hc Hp. exfalso. rewrite Co in Hc. exact (Hd j i j' i' c K K' Hc Hp).
Qed.

Lemma Split_writes m inp xi yi o1 x1 y1 o2 x2 y2 o3 x3 y3 w h :
  wf m o1 -> wf m o2 -> wf m o3 -> wf m inp ->
  icc o1 = 1 -> icc o2 = 1 -> icc o3 = 1 -> icc inp = 3 ->
  roi_in o1 x1 y1 w h -> roi_in o2 x2 y2 w h -> roi_in o3 x3 y3 w h -> roi_in inp xi yi w h ->
  disjoint inp xi yi w h o1 x1 y1 w h -> disjoint inp xi yi w h o2 x2 y2 w h ->
  disjoint inp xi yi w h o3 x3 y3 w h ->
  disjoint o1 x1 y1 w h o2 x2 y2 w h -> disjoint o1 x1 y1 w h o3 x3 y3 w h ->
  disjoint o2 x2 y2 w h o3 x3 y3 w h ->
  writes3 (Split m inp xi yi o1 x1 y1 o2 x2 y2 o3 x3 y3 w h) m o1 x1 y1 o2 x2 y2 o3 x3 y3 w h
    (fun i j => pixel m inp (xi + i) (yi + j) 0)
    (fun i j => pixel m inp (xi + i) (yi + j) 1)
    (fun i j => pixel m inp (xi + i) (yi + j) 2).
Proof.
  intros W1 W2 W3 Wi C1 C2 C3 Ci R1 R2 R3 Ri D1 D2 D3 D12 D13 D23.
  assert (Hw0 : 0 < w) by apply Ri. assert (Hh0 : 0 < h) by apply Ri.
  unfold Split, valid_roi3, valid_roi2, RGB.
  rewrite !(valid_roi_ok m) by assumption.
  rewrite !gray_true, rgb_true by assumption. cbn [andb].
  rewrite (row_ptr_origin m o1 x1 y1 w h) by (auto; lia).
  rewrite (row_ptr_origin m o2 x2 y2 w h) by (auto; lia).
  rewrite (row_ptr_origin m o3 x3 y3 w h) by (auto; lia).
  rewrite (row_ptr_origin m inp xi yi w h) by (auto; lia).
  pose proof (u32_width m inp xi w Wi ltac:(apply Ri) ltac:(lia) ltac:(apply Ri)) as Hu.
  rewrite Ci in Hu. rewrite Hu.
  pose proof (wf_rs_pos _ _ Wi). pose proof (roi_rows_small m inp xi yi w h Wi Ri).
  set (dsts := fun j i => [px o1 (x1 + i) (y1 + j) 0; px o2 (x2 + i) (y2 + j) 0; px o3 (x3 + i) (y3 + j) 0]).
  set (srcs := fun j i => [px inp (xi + i) (yi + j) 0; px inp (xi + i) (yi + j) 1; px inp (xi + i) (yi + j) 2]).
  assert (Hd : forall j i j' i' p, 0 <= j < h /\ 0 <= i < w -> 0 <= j' < h /\ 0 <= i' < w ->
            In p (dsts j i) -> In p (srcs j' i') -> False).
  { intros j i j' i' p (Hj & Hi) (Hj' & Hi') [<-|[<-|[<-|[]]]] [Hp|[Hp|[Hp|[]]]].
    all: first
      [ eapply (disjoint_px _ _ _ _ _ _ _ _ _ _ _ _ _ _ _ _ D1); eauto; unfold inside; lia
      | eapply (disjoint_px _ _ _ _ _ _ _ _ _ _ _ _ _ _ _ _ D2); eauto; unfold inside; lia
      | eapply (disjoint_px _ _ _ _ _ _ _ _ _ _ _ _ _ _ _ _ D3); eauto; unfold inside; lia ]. }
  match goal with |- writes3 ?r _ _ _ _ _ _ _ _ _ _ _ _ _ _ _ =>
    assert (Er : r = iterM (Z.to_nat h) 0 (fun j => iterM (Z.to_nat w) 0 (fun i =>
                  gstep (srcs j i) (dsts j i) (fun vs => Ok vs))) m)
  end.
  { etransitivity; [apply (walk2_plain w); try reflexivity; try lia|].
    apply iterM_ext. intros j s Hj. apply iterM_ext. intros i t Hi.
    unfold c0, c1, c2, c3, cells. cbn [zip3 map nth fst snd].
    rewrite !(px_cell inp) by assumption.
    rewrite (px_cell0 inp), (px_cell0 o1), (px_cell0 o2), (px_cell0 o3) by assumption.
    rewrite moves_gstep_sep; [reflexivity|].
    intros p A B. apply (Hd j i j i p); auto; lia. }
  rewrite Er.
  destruct (@scatter2 mem srcs dsts (fun _ _ vs => Ok vs) (fun j i => map (get m) (srcs j i))
              (Z.to_nat h) (Z.to_nat w) m) as (m' & He & Hl & Hf & Hv).
  - intros j i (Hj & Hi) p [<-|[<-|[<-|[]]]]; apply (px_inb m inp xi yi w h); auto; unfold inside; lia.
  - intros j i (Hj & Hi) p [<-|[<-|[<-|[]]]].
    + apply (px_inb m o1 x1 y1 w h); auto; unfold inside; lia.
    + apply (px_inb m o2 x2 y2 w h); auto; unfold inside; lia.
    + apply (px_inb m o3 x3 y3 w h); auto; unfold inside; lia.
  - intros j i _. split; reflexivity.
  - intros j i (Hj & Hi).
    assert (A12 : px o1 (x1 + i) (y1 + j) 0 <> px o2 (x2 + i) (y2 + j) 0)
      by (apply D12; unfold inside; lia).
    assert (A13 : px o1 (x1 + i) (y1 + j) 0 <> px o3 (x3 + i) (y3 + j) 0)
      by (apply D13; unfold inside; lia).
    assert (A23 : px o2 (x2 + i) (y2 + j) 0 <> px o3 (x3 + i) (y3 + j) 0)
      by (apply D23; unfold inside; lia).
    repeat constructor; simpl; intuition congruence.
  - assert (Hself : forall o x y, wf m o -> icc o = 1 -> roi_in o x y w h -> forall j i j' i',
              0 <= j < h -> 0 <= i < w -> 0 <= j' < h -> 0 <= i' < w ->
              px o (x + i) (y + j) 0 = px o (x + i') (y + j') 0 -> j = j' /\ i = i').
    { intros o x y W C R j i j' i' Hj Hi Hj' Hi' He.
      apply (px_inj m o x y w h) in He; auto; unfold inside; rewrite ?C; lia. }
    intros j i j' i' p (Hj & Hi) (Hj' & Hi') [<-|[<-|[<-|[]]]] [Hp|[Hp|[Hp|[]]]].
    all: try (exfalso; first
      [ eapply (disjoint_px _ _ _ _ _ _ _ _ _ _ _ _ _ _ _ _ D12); eauto; unfold inside; lia
      | eapply (disjoint_px _ _ _ _ _ _ _ _ _ _ _ _ _ _ _ _ D13); eauto; unfold inside; lia
      | eapply (disjoint_px _ _ _ _ _ _ _ _ _ _ _ _ _ _ _ _ D23); eauto; unfold inside; lia ]).
    + apply (Hself o1 x1 y1); auto; lia.
    + apply (Hself o2 x2 y2); auto; lia.
    + apply (Hself o3 x3 y3); auto; lia.
  - intros j i j' i' p K K' A B. exfalso. apply (Hd j i j' i' p); auto; lia.
  - exists m'. split; [exact He|]. split; [|split; [exact Hl|]].
    + intros i j (Hi & Hj & _).
      assert (K : 0 <= j < Z.of_nat (Z.to_nat h) /\ 0 <= i < Z.of_nat (Z.to_nat w)) by lia.
      pose proof (Hv j i 0%nat nullp K) as V0. pose proof (Hv j i 1%nat nullp K) as V1.
      pose proof (Hv j i 2%nat nullp K) as V2. simpl in V0, V1, V2.
      unfold pixel. repeat split; auto with arith.
    + intros p Hp. apply Hf. intros j i (Hj & Hi) Hin.
      destruct (Hp i j) as (A & B & C); [unfold inside; lia|].
      destruct Hin as [E1|[E1|[E1|[]]]]; congruence.
Qed.

Lemma ReplaceChannel_writes m ch xc yc rgb xr yr w h id :
  wf m ch -> wf m rgb -> icc ch = 1 -> icc rgb = 3 -> 0 <= id < 3 ->
  roi_in ch xc yc w h -> roi_in rgb xr yr w h ->
  disjoint rgb xr yr w h ch xc yc w h ->
  writes (ReplaceChannel m ch xc yc rgb xr yr w h id) m rgb xr yr w h
    (fun i j c => if c =? id then pixel m ch (xc + i) (yc + j) 0
                  else pixel m rgb (xr + i) (yr + j) c).
Proof.
  intros W1 Wo C1 Co Hid R1 Ro D.
  assert (Hw0 : 0 < w) by apply Ro. assert (Hh0 : 0 < h) by apply Ro.
  unfold ReplaceChannel, RGB. rewrite gray_true, rgb_true by assumption.
  destruct (Z.ltb_spec id 3); [|lia].
  prep2 m ch xc yc rgb xr yr w h.
  pose proof (u32_width m rgb xr w Wo ltac:(apply Ro) ltac:(lia) ltac:(apply Ro)) as Hu.
  rewrite Co in Hu. rewrite Hu.
  pose proof (wf_rs_pos _ _ Wo). pose proof (roi_rows_small m rgb xr yr w h Wo Ro).
  match goal with |- writes ?r _ _ _ _ _ _ _ =>
    assert (Er : r = iterM (Z.to_nat h) 0 (fun j => iterM (Z.to_nat w) 0 (fun i =>
                  sstep [px ch (xc + i) (yc + j) 0] (px rgb (xr + i) (yr + j) id)
                    (fun vs => Ok (nth 0 vs 0)))) m)
  end.
  { etransitivity; [apply (walk2_plain w); try reflexivity; try lia|].
    apply iterM_ext. intros j s _. apply iterM_ext. intros i t _.
    unfold sstep, c0, c1, cells. cbn [zip3 map nth fst snd loads].
    rewrite (px_cell0 ch) by assumption.
    rewrite (px_cell_pre rgb) by assumption.
    rewrite !bind_assoc. apply bind_ext. intros a _. reflexivity. }
  rewrite Er.
  destruct (@scatter2_1 mem (fun j i => [px ch (xc + i) (yc + j) 0])
              (fun j i => px rgb (xr + i) (yr + j) id) (fun _ _ vs => Ok (nth 0 vs 0))
              (fun j i => pixel m ch (xc + i) (yc + j) 0) (Z.to_nat h) (Z.to_nat w) m)
    as (m' & He & Hl & Hf & Hv).
  - intros j i (Hj & Hi) p [<-|[]]. apply (px_inb m ch xc yc w h); auto; unfold inside; lia.
  - intros j i (Hj & Hi). apply (px_inb m rgb xr yr w h); auto; unfold inside; lia.
  - reflexivity.
  - intros j i j' i' (Hj & Hi) (Hj' & Hi') Heq.
    apply (px_inj m rgb xr yr w h) in Heq; auto; unfold inside; try lia.
  - intros j i j' i' (Hj & Hi) (Hj' & Hi') [Hp|[]]. exfalso. symmetry in Hp.
    eapply (disjoint_px _ _ _ _ _ _ _ _ _ _ _ _ _ _ _ _ D); eauto; unfold inside; lia.
  - exists m'. split; [exact He|]. split; [|split; [exact Hl|]].
    + intros i j c (Hi & Hj & Hc). destruct (Z.eqb_spec c id) as [->|Hne].
      * apply Hv. lia.
      * apply Hf. intros j' i' (Hj' & Hi') Heq.
        apply (px_inj m rgb xr yr w h) in Heq; auto; unfold inside; try lia.
    + intros p Hp. apply Hf. intros j i (Hj & Hi). apply Hp. unfold inside. lia.
Qed.

(** ** Geometry *)

(** One gray source pixel per step. *)
Lemma writes_gray_map m inp xi yi wi hi out xo yo w h H N (pos src : Z -> Z -> Z * Z)
    (val : Z -> Z -> Z -> Z) (r : res mem mem) :
  let ok j i := 0 <= j < H /\ 0 <= i < N in
  wf m inp -> wf m out -> icc inp = 1 -> icc out = 1 ->
  roi_in inp xi yi wi hi -> roi_in out xo yo w h -> 0 <= H -> 0 <= N ->
  disjoint out xo yo w h inp xi yi wi hi ->
  (forall j i, ok j i -> 0 <= fst (pos j i) < w /\ 0 <= snd (pos j i) < h) ->
  (forall j i, ok j i -> 0 <= fst (src j i) < wi /\ 0 <= snd (src j i) < hi) ->
  (forall j i j' i', ok j i -> ok j' i' -> pos j i = pos j' i' -> j = j' /\ i = i') ->
  (forall x y, 0 <= x < w -> 0 <= y < h -> exists j i, ok j i /\ pos j i = (x, y)) ->
  r = iterM (Z.to_nat H) 0 (fun j => iterM (Z.to_nat N) 0 (fun i =>
        sstep [px inp (xi + fst (src j i)) (yi + snd (src j i)) 0]
              (px out (xo + fst (pos j i)) (yo + snd (pos j i)) 0)
              (fun vs => Ok (nth 0 vs 0)))) m ->
  (forall j i, ok j i ->
     val (fst (pos j i)) (snd (pos j i)) 0 = pixel m inp (xi + fst (src j i)) (yi + snd (src j i)) 0) ->
  writes r m out xo yo w h val.
Proof.
  intros ok W1 Wo C1 Co R1 Ro HH HN D Hpos Hsrc Hinj Hsur -> Hval.
  replace (iterM (Z.to_nat H) 0 (fun j => iterM (Z.to_nat N) 0 (fun i =>
        sstep [px inp (xi + fst (src j i)) (yi + snd (src j i)) 0]
              (px out (xo + fst (pos j i)) (yo + snd (pos j i)) 0)
              (fun vs => Ok (nth 0 vs 0)))) m)
    with (iterM (Z.to_nat H) 0 (fun j => iterM (Z.to_nat N) 0 (fun i =>
        @gstep mem [px inp (xi + fst (src j i)) (yi + snd (src j i)) 0]
              (map (px out (xo + fst (pos j i)) (yo + snd (pos j i))) [0])
              ((fun j i vs => Ok [nth 0 vs 0]) j i))) m).
  - apply writes_pixels; auto.
    + repeat constructor; simpl; tauto.
    + intros c. rewrite Co. simpl. lia.
    + intros j i p K [<-|[]]. destruct (Hsrc j i K).
      apply (px_inb m inp xi yi wi hi); auto; unfold inside; lia.
    + intros j i K. cbn [map nth]. rewrite Hval by assumption. reflexivity.
    + intros j i j' i' c K K' Hc [Hp|[]]. exfalso. symmetry in Hp.
      destruct (Hsrc j' i' K'), (Hpos j i K).
      eapply (disjoint_px _ _ _ _ _ _ _ _ _ _ _ _ _ _ _ _ D); eauto; unfold inside; lia.
  - apply iterM_ext. intros j s _. apply iterM_ext. intros i t _. rewrite sstep_gstep. reflexivity.
Qed.

Definition flip_x (b : bool) (w i : Z) : Z := if b then w - 1 - i else i.

Lemma Flip_writes m inp xi yi out xo yo w h (hor ver : bool) :
  wf m inp -> wf m out -> icc inp = 1 -> icc out = 1 ->
  roi_in inp xi yi w h -> roi_in out xo yo w h ->
  disjoint out xo yo w h inp xi yi w h ->
  writes (Flip m inp xi yi out xo yo w h hor ver) m out xo yo w h
    (fun i j c => pixel m inp (xi + (if hor then w - 1 - i else i)) (yi + (if ver then h - 1 - j else j)) c).
Proof.
  intros W1 Wo C1 Co R1 Ro D.
  assert (Hw0 : 0 < w) by apply Ro. assert (Hh0 : 0 < h) by apply Ro.
  unfold Flip. rewrite !gray_true by assumption.
  unfold valid_roi2. rewrite !(valid_roi_ok m) by assumption. cbn [andb].
  destruct (negb hor && negb ver) eqn:E0.
  { apply andb_true_iff in E0 as [E1 E2]. apply negb_true_iff in E1, E2. subst hor ver.
    apply Copy_writes; auto; congruence. }
  rewrite (row_ptr_origin m inp xi yi w h) by (auto; lia).
  rewrite (row_ptr_origin m out xo yo w h) by (auto; lia).
  pose proof (wf_rs_pos _ _ W1). pose proof (roi_rows_small m inp xi yi w h W1 R1) as Hsm.
  pose proof (wf_bounds _ _ Wo) as (B1 & B2 & B3 & B4).
  assert (Hlast : padd (padd (dataptr out) (u32 (u32 (yo + h - 1) * irs out))) xo
                  = px out xo (yo + (h - 1)) 0).
  { replace (dataptr out) with (ibase out).
    2:{ unfold dataptr, ibase. destruct (idata out) eqn:E; auto. destruct (wf_data _ _ Wo E). }
    pose proof (wf_size _ _ Wo). destruct Ro.
    rewrite (u32_small (yo + h - 1)) by lia. rewrite u32_small by nia.
    unfold px, padd. cbn [fst snd]. f_equal. rewrite Co. lia. }
  rewrite Hlast.
  apply (writes_gray_map m inp xi yi w h out xo yo w h h w
           (fun j i => (if hor then w - 1 - i else i, if ver then h - 1 - j else j)) (fun j i => (i, j)));
    auto; try lia; cbn [fst snd].
  - intros j i (Hj & Hi). destruct hor, ver; lia.
  - intros j i (Hj & Hi). lia.
  - intros j i j' i' (Hj & Hi) (Hj' & Hi') He. injection He. destruct hor, ver; lia.
  - intros x y Hx Hy. exists (if ver then h - 1 - y else y), (if hor then w - 1 - x else x).
    destruct hor, ver; split; try lia; f_equal; lia.
  - destruct hor, ver; try discriminate E0; cbn [andb negb].
    + etransitivity; [apply (walk2_plain w); try reflexivity; try lia|].
      apply iterM_ext. intros j s _. apply iterM_ext. intros i t _.
      unfold sstep, c0, c1, cells. cbn [zip3 map nth fst snd loads].
      rewrite (px_cell0 inp) by assumption. rewrite !bind_assoc. apply bind_ext. intros a _.
      cbn [bind nth]. f_equal. unfold px, padd. cbn [fst snd]. rewrite Co. f_equal. ring.
    + etransitivity; [apply (walk2_plain w); try reflexivity; try lia|].
      apply iterM_ext. intros j s _. apply iterM_ext. intros i t _.
      unfold sstep, c0, c1, cells. cbn [zip3 map nth fst snd loads].
      rewrite (px_cell0 inp) by assumption. rewrite !bind_assoc. apply bind_ext. intros a _.
      cbn [bind nth]. f_equal. unfold px, origin, padd. cbn [fst snd]. rewrite Co. f_equal. ring.
    + rewrite walk_rows by (auto; lia).
      apply iterM_ext. intros j s Hj. unfold at_, c0, c1. cbn [combine map nth fst snd].
      rewrite <- (Z2Nat.id w) at 1 by lia. rewrite memcpy_iterM.
      * apply iterM_ext. intros i t _. f_equal; [f_equal|].
        -- rewrite padd_padd. rewrite <- (px_cell0 inp xi yi i j 1) by assumption. f_equal. lia.
        -- unfold px, padd. cbn [fst snd]. rewrite Co. f_equal. ring.
      * rewrite Z2Nat.id by lia. apply overlaps_false. intros i i' Hi Hi' He.
        eapply (disjoint_px _ _ _ _ _ _ _ _ _ _ i (h - 1 - j) 0 i' j 0 D); unfold inside; try lia.
        unfold px, origin, padd in *. cbn [fst snd] in *. injection He as Eb Eo.
        rewrite Co, C1 in *. f_equal; [exact Eb|lia].
  - intros j i (Hj & Hi). destruct hor, ver; f_equal; lia.
Qed.

Lemma Transpose_writes m inp xi yi out xo yo w h :
  wf m inp -> wf m out -> icc inp = 1 -> icc out = 1 ->
  roi_in inp xi yi w h -> roi_in out xo yo h w ->
  disjoint out xo yo h w inp xi yi w h ->
  writes (Transpose m inp xi yi out xo yo w h) m out xo yo h w
    (fun i j c => pixel m inp (xi + j) (yi + i) 0).
Proof.
  intros W1 Wo C1 Co R1 Ro D.
  assert (Hw0 : 0 < w) by apply R1. assert (Hh0 : 0 < h) by apply R1.
  unfold Transpose. rewrite !gray_true by assumption.
  rewrite (valid_roi_ok m inp), (valid_roi_ok m out) by assumption. cbn [andb].
  rewrite (row_ptr_origin m inp xi yi w h) by (auto; lia).
  rewrite (row_ptr_origin m out xo yo h w) by (auto; lia).
  pose proof (wf_rs_pos _ _ Wo). pose proof (roi_rows_small m out xo yo h w Wo Ro) as Hsm.
  apply (writes_gray_map m inp xi yi w h out xo yo h w w h (fun j i => (i, j)) (fun j i => (j, i)));
    auto; try lia; cbn [fst snd].
  - intros j i (Hj & Hi). lia.
  - intros j i j' i' _ _ He. injection He. auto.
  - intros x y Hx Hy. exists y, x. auto.
  - etransitivity; [apply (walk2_plain h); try reflexivity; try lia|].
    apply iterM_ext. intros j s _. apply iterM_ext. intros i t _.
    unfold sstep, c0, c1, cells. cbn [zip3 map nth fst snd loads].
    rewrite (px_cell0 out) by assumption. rewrite Z.mul_1_r, (Z.add_comm j).
    replace (padd (origin inp xi yi 1) (i * irs inp + j)) with (px inp (xi + j) (yi + i) 0)
      by (rewrite <- (px_cell0 inp xi yi j i 1) by assumption; f_equal; lia).
    rewrite !bind_assoc. apply bind_ext. intros a _. reflexivity.
Qed.

Lemma positionX_length wi wo cc : length (positionX wi wo cc) = Z.to_nat wo.
Proof. unfold positionX. rewrite map_length, seq_length. reflexivity. Qed.

Lemma positionX_nth {E} wi wo cc k :
  0 <= k < wo -> @vnth E (positionX wi wo cc) k = Ok (u32 (u32 (k * wi) / wo * cc)).
Proof.
  intros Hk. unfold vnth. rewrite positionX_length, Z2Nat.id by lia.
  destruct (Z.leb_spec 0 k); [|lia]. destruct (Z.ltb_spec k wo); [|lia]. cbn [andb].
  f_equal. unfold positionX.
  set (f := fun k : nat => u32 (u32 (Z.of_nat k * wi) / wo * cc)).
  rewrite nth_indep with (d' := f 0%nat) by (rewrite map_length, seq_length; lia).
  rewrite map_nth, seq_nth by lia. unfold f. f_equal. f_equal. f_equal. f_equal. f_equal. lia.
Qed.

Lemma scale_lt k a b : 0 <= k < b -> 0 < a -> 0 <= k * a / b < a.
Proof.
  intros Hk Ha. split; [apply Z.div_pos; nia|apply Z.div_lt_upper_bound; nia].
Qed.

Lemma Resize_writes m inp xi yi wi hi out xo yo wo ho :
  wf m inp -> wf m out -> icc inp = icc out ->
  roi_in inp xi yi wi hi -> roi_in out xo yo wo ho ->
  (wo - 1) * wi < W32 -> (ho - 1) * hi < W32 ->
  disjoint out xo yo wo ho inp xi yi wi hi ->
  writes (Resize m inp xi yi wi hi out xo yo wo ho) m out xo yo wo ho
    (fun i j c => pixel m inp (xi + i * wi / wo) (yi + j * hi / ho) c).
Proof.
  intros W1 Wo C1 R1 Ro Bw Bh D.
  assert (Hw0 : 0 < wo) by apply Ro. assert (Hh0 : 0 < ho) by apply Ro.
  assert (Hwi : 0 < wi) by apply R1. assert (Hhi : 0 < hi) by apply R1.
  unfold Resize.
  rewrite (valid_roi_ok m inp), (valid_roi_ok m out) by assumption.
  pose proof (wf_cc_pos _ _ Wo) as Hcc.
  rewrite C1.
  rewrite (row_ptr_origin m inp xi yi wi hi) by (auto; lia).
  rewrite (row_ptr_origin m out xo yo wo ho) by (auto; lia).
  rewrite (u32_width m out xo wo) by (auto; first [apply Ro|lia]).
  pose proof (wf_rs_pos _ _ Wo). pose proof (roi_rows_small m out xo yo wo ho Wo Ro) as Hsm.
  pose proof (wf_rs_pos _ _ W1). pose proof (roi_rows_small m inp xi yi wi hi W1 R1) as Hsmi.
  pose proof (wf_bounds _ _ W1) as (_ & _ & _ & B4).
  eapply (@writes_raster mem m out xo yo wo ho
            (fun j i => pxs inp (xi + i * wi / wo) (yi + j * hi / ho)) (fun j i vs => Ok vs)); auto.
  - rewrite walk_rows by (auto; lia).
    apply iterM_ext. intros j s Hj.
    unfold at_, c0, c1. cbn [combine map nth fst snd padd]. rewrite Z.mul_1_r, Z.add_0_l.
    pose proof (scale_lt j hi ho ltac:(lia) Hhi) as Hsc.
    rewrite (u32_small (j * hi)) by nia.
    assert (j * hi / ho * irs inp < W32) by nia.
    rewrite (u32_small (j * hi / ho * irs inp)) by nia.
    assert (Hpos : forall i, 0 <= i < wo -> u32 (u32 (i * wi) / wo * icc out) = i * wi / wo * icc out).
    { intros i Hi. pose proof (scale_lt i wi wo Hi Hwi).
      rewrite (u32_small (i * wi)) by nia.
      assert (wi <= iw inp) by (destruct R1; lia).
      rewrite u32_small by (rewrite C1 in B4; nia). reflexivity. }
    destruct (Z.eqb_spec (icc out) 1) as [E1|E1].
    + erewrite (walk_iterM wo) by (try reflexivity; try lia; rewrite E1; f_equal; lia).
      apply iterM_ext. intros i t Hi. unfold at_. cbn [combine map nth fst snd padd].
      rewrite Z.add_0_l, !Z.mul_1_r. rewrite positionX_nth by lia. cbn [bind].
      rewrite Hpos by lia. unfold gstep.
      assert (P1 : forall im x y, icc im = 1 -> pxs im x y = [px im x y 0])
        by (intros im x y Ei; unfold pxs; rewrite Ei; reflexivity).
      rewrite (P1 inp), (P1 out) by congruence. cbn [loads].
      rewrite !bind_assoc.
      replace (padd (padd (origin inp xi yi (icc out)) (j * hi / ho * irs inp)) (i * wi / wo * icc out))
        with (px inp (xi + i * wi / wo) (yi + j * hi / ho) 0)
        by (rewrite padd_padd; symmetry; apply px_cell0; assumption).
      apply bind_ext. intros a _. cbn [bind stores].
      rewrite <- (px_cell0 out xo yo i j 1) by assumption. unfold padd, origin. cbn [fst snd].
      rewrite E1, bind_ok_r. repeat (first [lia|f_equal]).
    + erewrite (walk_iterM wo) by (try reflexivity; try lia; try nia; f_equal; lia).
      apply iterM_ext. intros i t Hi. unfold at_. cbn [combine map nth fst snd padd].
      rewrite Z.add_0_l, !Z.mul_1_r. rewrite positionX_nth by lia. cbn [bind].
      rewrite Hpos by lia.
      replace (padd (padd (origin inp xi yi (icc out)) (j * hi / ho * irs inp)) (i * wi / wo * icc out))
        with (px inp (xi + i * wi / wo) (yi + j * hi / ho) 0)
        by (rewrite padd_padd; symmetry; apply px_cell0; assumption).
      match goal with |- memcpy _ ?d _ _ = _ =>
        replace d with (px out (xo + i) (yo + j) 0)
          by (rewrite <- (px_cell0 out xo yo i j _ eq_refl); unfold padd; cbn [fst snd]; f_equal; lia)
      end.
      assert (Hspan : forall im x y, span (px im x y 0) (Z.to_nat (icc im)) = pxs im x y).
      { intros im x y. apply nth_ext with (d := nullp) (d' := nullp).
        - unfold pxs. rewrite span_length, map_length, zrange_length. reflexivity.
        - intros n Hn. rewrite span_length in Hn. rewrite span_nth by assumption.
          unfold pxs. rewrite nth_indep with (d' := px im x y 0)
            by (rewrite map_length, zrange_length; assumption).
          rewrite map_nth. rewrite <- (Nat2Z.id n) at 2. rewrite zrange_nth by lia.
          unfold px, padd. cbn [fst snd]. f_equal. lia. }
      unfold memcpy. rewrite overlaps_false.
      * unfold gstep. rewrite <- C1 at 1. rewrite !Hspan. reflexivity.
      * intros k k' Hk Hk' He.
        pose proof (scale_lt i wi wo ltac:(lia) Hwi).
        eapply (disjoint_px _ _ _ _ _ _ _ _ _ _ i j k (i * wi / wo) (j * hi / ho) k' D);
          unfold inside; try lia.
        unfold px, padd in *. cbn [fst snd] in *. injection He as Eb Eo. f_equal; [assumption|lia].
  - intros j i p (Hj & Hi) Hp. unfold pxs in Hp. apply in_map_iff in Hp as (c & <- & Hc).
    apply zrange_in in Hc.
    pose proof (scale_lt i wi wo Hi Hwi). pose proof (scale_lt j hi ho Hj Hhi).
    apply (px_inb m inp xi yi wi hi); auto; unfold inside; lia.
  - intros j i (Hj & Hi). unfold pxs. rewrite map_map, C1. reflexivity.
  - intros j i j' i' c (Hj & Hi) (Hj' & Hi') Hc Hp. exfalso.
    unfold pxs in Hp. apply in_map_iff in Hp as (c' & Hp & Hc'). apply zrange_in in Hc'.
    pose proof (scale_lt i' wi wo Hi' Hwi). pose proof (scale_lt j' hi ho Hj' Hhi).
    symmetry in Hp.
    eapply (disjoint_px _ _ _ _ _ _ _ _ _ _ _ _ _ _ _ _ D); eauto; unfold inside; lia.
Qed.
