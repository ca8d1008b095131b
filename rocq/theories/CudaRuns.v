(** Proofs about Cuda.v, continued: flips and colour conversion, sums with atomics, pixels. *)
From Coq Require Import ZArith List Bool Lia Permutation.
From Verif Require Import Base Image Spec BaseProofs ImgFun ImgLemmas ImgProofs SafeProofs ReduceProofs FuncPoolProofs
  Cuda CudaProofs.
Import ListNotations.
Open Scope Z_scope.

Ltac Zify.zify_post_hook ::= idtac.

(** ** Any constant stores that fill the region *)
Lemma writes_of_events m es out xo yo w h val :
  wf m out ->
  (forall e, In e es -> exists i j, 0 <= i < w * icc out /\ 0 <= j < h /\
     fst e = padd (origin out xo yo (icc out)) (j * irs out + i)) ->
  (forall e i j, In e es -> 0 <= i < w * icc out -> 0 <= j < h ->
     fst e = padd (origin out xo yo (icc out)) (j * irs out + i) -> forall a, snd e a = val j i) ->
  (forall i j, 0 <= i < w * icc out -> 0 <= j < h ->
     exists e, In e es /\ fst e = padd (origin out xo yo (icc out)) (j * irs out + i)) ->
  writes (@Ok mem mem (apply_all m es)) m out xo yo w h (fun i j c => val j (i * icc out + c)).
Proof.
  intros Wo H1 H2 H3. apply writes_of_samples; [assumption|]. exists (apply_all m es). split; [reflexivity|].
  split; [apply apply_all_len|]. split.
  - intros q Hq. apply apply_all_untouched. intros e He E. apply H1 in He as (i & j & Hi & Hj & E').
    apply (Hq j i); congruence.
  - intros j i Hj Hi. apply apply_const; [apply H3; assumption|]. intros e He E. apply (H2 e i j); auto.
Qed.

Lemma all_events_In w h m k e : In e (all_events w h m k) <->
  exists x y, 0 <= x < w /\ 0 <= y < h /\ In e (events (get m) (k x y)).
Proof.
  unfold all_events. rewrite in_flat_map. split.
  - intros ([x y] & Hc & He). apply pairs_In in Hc as [Hx Hy]. exists x, y. auto.
  - intros (x & y & Hx & Hy & He). exists (x, y). split; [apply pairs_In; auto|exact He].
Qed.

Lemma area_small m im x y w h : area m im x y w h -> 0 < w * icc im < W32 /\ 0 < w < W32 /\ 0 < h < W32.
Proof.
  intros [W R]. pose proof (wf_bounds _ _ W). pose proof (wf_cc_pos _ _ W). destruct R. nia.
Qed.

(** ** Flip *)
Definition mirror (b : bool) (n k : Z) : Z := if b then n - 1 - k else k.

Lemma cuda_Flip_run d m inp xi yi out xo yo w h hor ver : device_ok d ->
  area m inp xi yi w h -> area m out xo yo w h -> icc inp = 1 -> icc out = 1 ->
  disjoint out xo yo w h inp xi yi w h ->
  device_run (comfortable d w h) m (fun s => cuda_Flip d s m inp xi yi out xo yo w h hor ver)
    (fun M => writes (@Ok mem mem M) m out xo yo w h
       (fun i j _ => pixel m inp (xi + mirror hor w i) (yi + mirror ver h j) 0)).
Proof.
  intros Hd A1 Ao C1 Co D. pose proof A1 as [W1 R1]. pose proof Ao as [Wo Ro].
  destruct (area_small m out xo yo w h Ao) as (_ & Sw & Sh).
  destruct (negb hor && negb ver) eqn:Eb.
  { destruct hor, ver; try discriminate. cbn [mirror].
    apply (device_run_ext _ _ (fun s => cuda_Copy d s m inp xi yi out xo yo w h)).
    { intros s. unfold cuda_Flip, valid_roi2. rewrite !(valid_roi_ok m), !is_gray_true by assumption. reflexivity. }
    replace (comfortable d w h) with (comfortable d (w * icc out) h) by (rewrite Co, Z.mul_1_r; reflexivity).
    eapply device_run_weak; [|apply cuda1_run; auto].
    - intros M HM. eapply writes_ext; [exact HM|]. intros i j c (_ & _ & Hc). cbv beta. rewrite Co in Hc. replace c with 0 by lia. reflexivity.
    - congruence.
    - unfold common_cc2. rewrite C1, Co. reflexivity.
    - apply hazard_of_disjoint. assumption. }
  set (k := flipKernel (origin inp xi yi (icc inp)) (irs inp) (origin out xo yo (icc out)) (irs out) w h hor ver).
  apply (device_run_ext _ _ (fun s => launch2D d s m w h k)).
  { intros s. unfold cuda_Flip, valid_roi2. rewrite !(valid_roi_ok m), !is_gray_true by assumption. cbn [andb]. rewrite Eb.
    rewrite C1, Z.mul_1_r, (u32_small w) by lia.
    rewrite (row_ptr_origin m inp xi yi w h), (row_ptr_origin m out xo yo w h) by (assumption || lia).
    unfold k. rewrite C1, Co. reflexivity. }
  assert (Em : forall b n t, 0 <= t < n -> 0 < n < W32 -> (if b : bool then u32 (n - 1 - t) else t) = mirror b n t /\ 0 <= mirror b n t < n).
  { intros b n t Ht Hn. unfold mirror. destruct b; [rewrite u32_small by lia|]; split; auto; lia. }
  assert (Mm : forall b n t, mirror b n (mirror b n t) = t) by (intros b n t; unfold mirror; destruct b; lia).
  assert (Ek : forall a b, 0 <= a < w -> 0 <= b < h -> k a b =
    PLoad (padd (origin inp xi yi (icc inp)) (b * irs inp + a)) (fun v =>
    PStore (padd (origin out xo yo (icc out)) (mirror ver h b * irs out + mirror hor w a)) v PDone)).
  { intros a b Ha Hb. unfold k, flipKernel. rewrite in_range_in by lia.
    destruct (Em hor w a Ha Sw) as [-> Ma]. destruct (Em ver h b Hb Sh) as [-> Mb].
    rewrite (at_idx_ok m inp xi yi w h), (at_idx_ok m out xo yo w h) by (auto; rewrite ?C1, ?Co; lia). reflexivity. }
  apply launch2D_run; auto.
  - intros a b _ _ H. apply in_range_out, H.
  - intros a b Ha Hb. rewrite Ek by assumption. cbn [sound].
    split; [apply (cell_inb m inp xi yi w h); auto; rewrite C1; lia|]. split.
    { intros (x' & y' & Hx' & Hy' & Hne & E). rewrite Ek in E by assumption. destruct E as [E|[]]. revert E. cbn [fst].
      destruct (Em hor w x' Hx' Sw) as [_ Ma]. destruct (Em ver h y' Hy' Sh) as [_ Mb].
      apply (disjoint_cells out xo yo inp xi yi w h); auto; lia. }
    destruct (Em hor w a Ha Sw) as [_ Ma]. destruct (Em ver h b Hb Sh) as [_ Mb].
    split; [apply (cell_inb m out xo yo w h); auto; rewrite Co; lia|exact I].
  - intros es HP.
    assert (Hin : forall e, In e es <-> exists a b, 0 <= a < w /\ 0 <= b < h /\
       e = (padd (origin out xo yo (icc out)) (mirror ver h b * irs out + mirror hor w a),
            fun _ => get m (padd (origin inp xi yi (icc inp)) (b * irs inp + a)))).
    { intros e. transitivity (In e (all_events w h m k)).
      { split; apply Permutation_in; [exact HP|apply Permutation_sym, HP]. }
      rewrite all_events_In. split; intros (a & b & Ha & Hb & H); exists a, b; split; auto; split; auto.
      - rewrite Ek in H by assumption. destruct H as [<-|[]]. reflexivity.
      - rewrite Ek by assumption. left. symmetry. exact H. }
    eapply writes_ext.
    + apply (writes_of_events m es out xo yo w h
        (fun j i => get m (padd (origin inp xi yi (icc inp)) (mirror ver h j * irs inp + mirror hor w i)))); auto.
      * intros e He. apply Hin in He as (a & b & Ha & Hb & ->). exists (mirror hor w a), (mirror ver h b).
        destruct (Em hor w a Ha Sw) as [_ Ma]. destruct (Em ver h b Hb Sh) as [_ Mb]. cbn [fst]. split; [lia|]. auto.
      * intros e i j He Hi Hj E v. apply Hin in He as (a & b & Ha & Hb & ->). cbn [fst snd] in *.
        destruct (Em hor w a Ha Sw) as [_ Ma].
        apply (cell_inj m _ _ _ w h) in E as [<- <-]; auto; [|lia]. rewrite !Mm. reflexivity.
      * intros i j Hi Hj. rewrite Co, Z.mul_1_r in Hi.
        destruct (Em hor w i Hi Sw) as [_ Ma]. destruct (Em ver h j Hj Sh) as [_ Mb].
        eexists. split; [apply Hin; exists (mirror hor w i), (mirror ver h j); split; [exact Ma|split; [exact Mb|reflexivity]]|].
        cbn [fst]. rewrite !Mm. reflexivity.
    + intros i j c (_ & _ & Hc). cbv beta. unfold pixel. rewrite px_origin, C1. replace (i * icc out + c) with i by lia.
      rewrite Z.mul_1_r, Z.add_0_r. reflexivity.
Qed.

(** ** Colour conversion *)
Fixpoint chan_sum (g : ptr -> Z) (n : nat) (p : ptr) (s : Z) : Z :=
  match n with O => s | S n' => chan_sum g n' (padd p 1) (u32 (s + g p)) end.

Lemma sum_channels_events g k n : forall p s, events g (sum_channels n p s k) = events g (k (chan_sum g n p s)).
Proof. induction n as [|n IH]; intros p s; cbn [sum_channels events chan_sum]; auto. Qed.
Lemma sum_channels_sound m g D k n : forall p s,
  (forall i, 0 <= i < Z.of_nat n -> inb m (padd p i) = true /\ ~ D (padd p i)) ->
  sound m g D (k (chan_sum g n p s)) -> sound m g D (sum_channels n p s k).
Proof.
  induction n as [|n IH]; intros p s H Hk; cbn [sum_channels sound chan_sum] in *; auto.
  destruct (H 0 ltac:(lia)) as [H1 H2]. rewrite padd_0 in H1, H2. split; [exact H1|]. split; [exact H2|].
  apply IH; auto. intros i Hi. rewrite padd_padd. apply H. lia.
Qed.
Lemma sumn_head n f : sumn (S n) f = f 0 + sumn n (fun k => f (k + 1)).
Proof.
  induction n as [|n IH]; [cbn; lia|]. change (sumn (S (S n)) f) with (sumn (S n) f + f (Z.of_nat (S n))).
  rewrite IH. cbn [sumn]. rewrite Nat2Z.inj_succ. unfold Z.succ. lia.
Qed.
Lemma chan_sum_value g n : forall p s, (n <= 4)%nat -> 0 <= s <= 255 * (4 - Z.of_nat n) ->
  (forall i, 0 <= i < Z.of_nat n -> 0 <= g (padd p i) < 256) ->
  chan_sum g n p s = s + sumn n (fun i => g (padd p i)).
Proof.
  induction n as [|n IH]; intros p s Hn Hs Hg; [cbn; lia|]. cbn [chan_sum]. rewrite sumn_head, padd_0.
  pose proof (Hg 0 ltac:(lia)) as G0. rewrite padd_0 in G0. rewrite u32_small by (rewrite W32_val; lia).
  rewrite IH; [| lia | lia |].
  - rewrite Z.add_assoc. f_equal. apply sumn_ext. intros k Hk. rewrite padd_padd. do 2 f_equal. lia.
  - intros i Hi. rewrite padd_padd. apply Hg. lia.
Qed.

Lemma cuda_Gray_run d m inp xi yi out xo yo w h : device_ok d ->
  area m inp xi yi w h -> area m out xo yo w h -> icc inp <> 1 -> icc out = 1 -> bytes m inp ->
  disjoint out xo yo w h inp xi yi w h ->
  device_run (comfortable d w h) m (fun s => cuda_ConvertToGrayScale d s m inp xi yi out xo yo w h)
    (fun M => writes (@Ok mem mem M) m out xo yo w h
       (fun i j _ => zsum (icc inp) (fun c => pixel m inp (xi + i) (yi + j) c) / icc inp)).
Proof.
  intros Hd [W1 R1] [Wo Ro] C1 Co B D. pose proof (wf_cc_pos _ _ W1) as Hcc.
  set (k := grayKernel (origin inp xi yi (icc inp)) (irs inp) (icc inp) (origin out xo yo (icc out)) (irs out) w h).
  apply (device_run_ext _ _ (fun s => launch2D d s m (w * icc out) h k)).
  { intros s. unfold cuda_ConvertToGrayScale, valid_roi2. rewrite !(valid_roi_ok m), !is_gray_true by assumption. cbn [andb].
    destruct (Z.eqb_spec (icc inp) GRAY_SCALE); [contradiction|].
    rewrite (row_ptr_origin m inp xi yi w h), (row_ptr_origin m out xo yo w h) by (assumption || lia).
    unfold k. rewrite Co, Z.mul_1_r. reflexivity. }
  replace (comfortable d w h) with (comfortable d (w * icc out) h) by (rewrite Co, Z.mul_1_r; reflexivity).
  set (cell := fun a b => padd (origin inp xi yi (icc inp)) (b * irs inp + a * icc inp)).
  assert (Ek : forall a b, 0 <= a < w * icc out -> 0 <= b < h -> k a b =
    sum_channels (Z.to_nat (icc inp)) (cell a b) 0 (fun sum =>
    PStore (padd (origin out xo yo (icc out)) (b * irs out + a)) (u8 (sum / icc inp)) PDone)).
  { intros a b Ha Hb. unfold k, grayKernel. rewrite in_range_in by lia. rewrite (at_idx_ok m out xo yo w h) by auto.
    destruct (sample_small m inp xi yi w h (a * icc inp) b) as [S1 S2]; auto; [nia|].
    rewrite (u32_small (b * irs inp)) by lia. rewrite (u32_small (a * icc inp)) by nia. rewrite padd_padd. reflexivity. }
  assert (Ev : forall a b, 0 <= a < w * icc out -> 0 <= b < h ->
    u8 (chan_sum (get m) (Z.to_nat (icc inp)) (cell a b) 0 / icc inp)
    = zsum (icc inp) (fun c => pixel m inp (xi + a) (yi + b) c) / icc inp).
  { intros a b Ha Hb.
    assert (G : forall i, 0 <= i < icc inp -> 0 <= get m (padd (cell a b) i) < 256).
    { intros i Hi. replace (get m (padd (cell a b) i)) with (pixel m inp (xi + a) (yi + b) i).
      - destruct R1. apply B; lia.
      - unfold pixel, cell. rewrite px_origin, padd_padd. do 2 f_equal. lia. }
    rewrite chan_sum_value by (rewrite ?Z2Nat.id by lia; auto; lia).
    rewrite Z.add_0_l. fold (zsum (icc inp) (fun i => get m (padd (cell a b) i))).
    rewrite (zsum_ext (icc inp) _ (fun c => pixel m inp (xi + a) (yi + b) c)).
    - pose proof (zsum_bound (icc inp) (fun c => pixel m inp (xi + a) (yi + b) c) 0 255 ltac:(lia)) as ZB.
      assert (ZB' : icc inp * 0 <= zsum (icc inp) (fun c => pixel m inp (xi + a) (yi + b) c) <= icc inp * 255).
      { apply ZB. intros c Hc. destruct R1. pose proof (B (xi + a) (yi + b) c ltac:(lia) ltac:(lia) ltac:(lia)). lia. }
      unfold u8. apply Z.mod_small. split; [apply Z.div_pos; lia|apply Z.div_lt_upper_bound; lia].
    - intros c Hc. unfold pixel, cell. rewrite px_origin, padd_padd. do 2 f_equal. lia. }
  eapply device_run_weak; [intros M HM; eapply writes_ext; [exact HM|]|
    apply (store_launch d m out xo yo w h k (fun j i => zsum (icc inp) (fun c => pixel m inp (xi + i) (yi + j) c) / icc inp));
      [assumption|split; assumption| | |]].
  - intros i j c (Hi & Hj & Hc). cbv beta. replace (i * icc out + c) with i by lia. reflexivity.
  - intros a b H. apply in_range_out. lia.
  - intros a b Ha Hb. rewrite Ek, sum_channels_events by assumption. cbn [events]. rewrite Ev by assumption. reflexivity.
  - intros a b Ha Hb. rewrite Ek by assumption. apply sum_channels_sound.
    + intros i Hi. rewrite Z2Nat.id in Hi by lia. unfold cell. rewrite padd_padd.
      replace (b * irs inp + a * icc inp + i) with (b * irs inp + (a * icc inp + i)) by lia.
      assert (0 <= a * icc inp + i < w * icc inp) by nia.
      split; [apply (cell_inb m inp xi yi w h); auto; lia|].
      intros (x' & y' & Hx' & Hy' & Hne & E). symmetry in E. revert E. apply (disjoint_cells out xo yo inp xi yi w h); auto; lia.
    + cbn [sound]. split; [apply (cell_inb m out xo yo w h); auto; lia|exact I].
Qed.

Lemma fill_channels_events g n : forall p s e, In e (events g (fill_channels n p s)) <->
  exists i, 0 <= i < Z.of_nat n /\ e = (padd p i, fun _ => g s).
Proof.
  induction n as [|n IH]; intros p s e; cbn [fill_channels events In].
  - split; [intros []|intros (i & Hi & _); lia].
  - rewrite IH. split.
    + intros [<-|(i & Hi & ->)].
      * exists 0. split; [lia|]. rewrite padd_0. reflexivity.
      * exists (i + 1). split; [lia|]. rewrite padd_padd. do 2 f_equal. lia.
    + intros (i & Hi & ->). destruct (Z.eq_dec i 0) as [->|Hne]; [left; rewrite padd_0; reflexivity|].
      right. exists (i - 1). split; [lia|]. rewrite padd_padd. do 2 f_equal. lia.
Qed.
Lemma fill_channels_sound m g n : forall p s (D : ptr -> Prop), inb m s = true -> ~ D s ->
  (forall i, 0 <= i < Z.of_nat n -> inb m (padd p i) = true /\ padd p i <> s) ->
  sound m g D (fill_channels n p s).
Proof.
  induction n as [|n IH]; intros p s D Hs HD H; cbn [fill_channels sound]; auto.
  split; [exact Hs|]. split; [exact HD|]. destruct (H 0 ltac:(lia)) as [H1 H2]. rewrite padd_0 in H1, H2.
  split; [exact H1|]. apply IH; auto.
  - intros [Hd|Hd]; [auto|congruence].
  - intros i Hi. rewrite padd_padd. apply H. lia.
Qed.

Lemma is_rgb_true im : icc im = 3 -> is_rgb im = true.
Proof. intros H. unfold is_rgb, RGB. rewrite H. reflexivity. Qed.

Lemma cuda_Rgb_run d m inp xi yi out xo yo w h : device_ok d ->
  area m inp xi yi w h -> area m out xo yo w h -> icc inp = 1 -> icc out = 3 ->
  disjoint out xo yo w h inp xi yi w h ->
  device_run (comfortable d w h) m (fun s => cuda_ConvertToRgb d s m inp xi yi out xo yo w h)
    (fun M => writes (@Ok mem mem M) m out xo yo w h (fun i j _ => pixel m inp (xi + i) (yi + j) 0)).
Proof.
  intros Hd A1 Ao C1 Co D. pose proof A1 as [W1 R1]. pose proof Ao as [Wo Ro].
  destruct (area_small m out xo yo w h Ao) as (_ & Sw & Sh).
  set (k := rgbKernel (origin inp xi yi (icc inp)) (irs inp) (origin out xo yo (icc out)) (irs out) (icc out) w h).
  apply (device_run_ext _ _ (fun s => launch2D d s m w h k)).
  { intros s. unfold cuda_ConvertToRgb, valid_roi2. rewrite !(valid_roi_ok m), !is_rgb_true by assumption. cbn [andb].
    destruct (Z.eqb_spec (icc inp) RGB) as [E|_]; [unfold RGB in E; lia|].
    rewrite (row_ptr_origin m inp xi yi w h), (row_ptr_origin m out xo yo w h) by (assumption || lia).
    unfold k. rewrite C1. reflexivity. }
  set (cell := fun a b => padd (origin out xo yo (icc out)) (b * irs out + a * icc out)).
  assert (Ek : forall a b, 0 <= a < w -> 0 <= b < h -> k a b =
    fill_channels 3 (cell a b) (padd (origin inp xi yi (icc inp)) (b * irs inp + a))).
  { intros a b Ha Hb. unfold k, rgbKernel. rewrite in_range_in by lia. rewrite (at_ptr_ok m inp xi yi w h) by (auto; lia).
    destruct (sample_small m out xo yo w h (a * icc out) b) as [S1 S2]; auto; [nia|].
    rewrite (u32_small (b * irs out)) by lia. rewrite (u32_small (a * icc out)) by nia. rewrite padd_padd. unfold cell.
    replace (Z.to_nat (icc out)) with 3%nat by (rewrite Co; reflexivity). reflexivity. }
  assert (Hin1 : forall a b e, 0 <= a < w -> 0 <= b < h -> In e (events (get m) (k a b)) -> exists i, 0 <= i < 3 /\
     e = (padd (origin out xo yo (icc out)) (b * irs out + (a * icc out + i)), fun _ => get m (padd (origin inp xi yi (icc inp)) (b * irs inp + a)))).
  { intros a b e Ha Hb He. rewrite Ek in He by assumption. apply fill_channels_events in He as (i & Hi & ->).
    exists i. split; [lia|]. unfold cell. rewrite padd_padd. do 2 f_equal. lia. }
  apply launch2D_run; auto.
  - intros a b _ _ H. apply in_range_out, H.
  - intros a b Ha Hb. rewrite Ek by assumption. apply fill_channels_sound.
    + apply (cell_inb m inp xi yi w h); auto; lia.
    + intros (x' & y' & Hx' & Hy' & Hne & E). apply in_map_iff in E as (e & E & He). apply Hin1 in He as (i & Hi & ->); auto.
      revert E. cbn [fst]. apply (disjoint_cells out xo yo inp xi yi w h); auto; lia.
    + intros i Hi. unfold cell. rewrite padd_padd. rewrite <- Z.add_assoc. split; [apply (cell_inb m out xo yo w h); auto; lia|].
      apply (disjoint_cells out xo yo inp xi yi w h); auto; lia.
  - intros es HP.
    assert (Hin : forall e, In e es <-> In e (all_events w h m k)).
    { intros e. split; apply Permutation_in; [exact HP|apply Permutation_sym, HP]. }
    eapply writes_ext.
    + apply (writes_of_events m es out xo yo w h
        (fun j i => get m (padd (origin inp xi yi (icc inp)) (j * irs inp + i / 3)))); auto.
      * intros e He. apply Hin, all_events_In in He as (a & b & Ha & Hb & He). apply Hin1 in He as (i & Hi & ->); auto.
        exists (a * icc out + i), b. cbn [fst]. split; [lia|]. auto.
      * intros e i j He Hi Hj E v. apply Hin, all_events_In in He as (a & b & Ha & Hb & He). apply Hin1 in He as (c & Hc & ->); auto.
        cbn [fst snd] in *. apply (cell_inj m _ _ _ w h) in E as [-> <-]; auto; [|lia].
        rewrite Co. replace ((a * 3 + c) / 3) with a by (apply Z.div_unique with c; lia). reflexivity.
      * intros i j Hi Hj. rewrite Co in Hi. destruct (split_index 3 i w) as (A1' & A2 & A3); try lia.
        eexists. split.
        -- apply Hin, all_events_In. exists (i / 3), j. split; [exact A1'|]. split; [exact Hj|]. rewrite Ek by assumption.
           apply fill_channels_events. exists (i mod 3). split; [lia|reflexivity].
        -- cbn [fst]. unfold cell. rewrite padd_padd, Co. f_equal. lia.
    + intros i j c (Hi & Hj & Hc). cbv beta. unfold pixel. rewrite px_origin, C1, Co.
      replace ((i * 3 + c) / 3) with i by (apply Z.div_unique with c; lia). do 2 f_equal. lia.
Qed.

(** ** Sums with atomics *)
Definition lsum {A} (l : list A) (f : A -> Z) : Z := fold_right (fun a s => f a + s) 0 l.

Lemma lsum_perm {A} (l l' : list A) f : Permutation l l' -> lsum l f = lsum l' f.
Proof. unfold lsum. induction 1; cbn [fold_right]; lia. Qed.
Lemma lsum_app {A} (l l' : list A) f : lsum (l ++ l') f = lsum l f + lsum l' f.
Proof. unfold lsum. induction l; cbn [fold_right app]; lia. Qed.
Lemma lsum_map {A B} (g : A -> B) l f : lsum (map g l) f = lsum l (fun a => f (g a)).
Proof. unfold lsum. induction l; cbn [fold_right map]; lia. Qed.
Lemma lsum_ext {A} (l : list A) f g : (forall a, In a l -> f a = g a) -> lsum l f = lsum l g.
Proof.
  unfold lsum. induction l as [|a l IH]; intros H; cbn [fold_right]; auto.
  rewrite (H a (or_introl eq_refl)), IH; auto. intros b Hb. apply H. right. exact Hb.
Qed.
Lemma lsum_zrange n f : lsum (zrange n) f = zsum n f.
Proof.
  unfold zrange, zsum. rewrite lsum_map. induction (Z.to_nat n) as [|k IH]; [reflexivity|].
  rewrite seq_S, lsum_app, IH. cbn [sumn]. unfold lsum. cbn [fold_right]. rewrite Nat.add_0_l. lia.
Qed.
Lemma lsum_pairs w h f : lsum (pairs w h) f = zsum h (fun j => zsum w (fun i => f (i, j))).
Proof.
  rewrite zsum_swap. unfold pairs. rewrite <- lsum_zrange. induction (zrange w) as [|a l IH]; [reflexivity|].
  cbn [list_prod]. rewrite lsum_app, IH, lsum_map. unfold lsum at 3. cbn [fold_right]. fold (lsum l (fun i => zsum h (fun j => f (i, j)))).
  rewrite lsum_zrange. reflexivity.
Qed.

Lemma u32_add_l a b : u32 (u32 a + b) = u32 (a + b).
Proof. unfold u32. rewrite Z.add_mod_idemp_l by (unfold W32; lia). reflexivity. Qed.

Lemma apply_sums {A} (cell : A -> ptr) (wt : A -> Z) q cs : forall m, 0 <= get m q < W32 ->
  get (apply_all m (map (fun c => (cell c, fun v => u32 (v + wt c))) cs)) q
  = u32 (get m q + lsum cs (fun c => if ptr_eqb q (cell c) then wt c else 0)).
Proof.
  induction cs as [|c cs IH]; intros m Hm; cbn [map apply_all fold_left].
  - unfold lsum. cbn [fold_right]. rewrite Z.add_0_r, u32_small by lia. reflexivity.
  - fold (apply_all (apply1 m (cell c, fun v => u32 (v + wt c))) (map (fun c => (cell c, fun v => u32 (v + wt c))) cs)).
    unfold lsum. cbn [fold_right]. fold (lsum cs (fun c => if ptr_eqb q (cell c) then wt c else 0)).
    rewrite IH; unfold apply1; cbn [fst snd]; rewrite get_upd; destruct (ptr_eqb_spec q (cell c)) as [<-|Hn].
    + rewrite u32_add_l. f_equal. lia.
    + f_equal.
    + apply u32_range.
    + exact Hm.
Qed.

(** *** A block for the result *)
Lemma with_block_len m b vs b' : len (with_block m b vs) b' = if b' =? b then Z.of_nat (length vs) else len m b'.
Proof. unfold len, with_block. destruct (b' =? b); reflexivity. Qed.
Lemma with_block_get m b vs p : get (with_block m b vs) p = if fst p =? b then nth (Z.to_nat (snd p)) vs 0 else get m p.
Proof. unfold get, with_block. destruct (fst p =? b); reflexivity. Qed.
Lemma without_block_len m m' b b' : len (without_block m m' b) b' = if b' =? b then len m b' else len m' b'.
Proof. unfold len, without_block. destruct (b' =? b); reflexivity. Qed.
Lemma without_block_get m m' b p : get (without_block m m' b) p = if fst p =? b then get m p else get m' p.
Proof. unfold get, without_block. destruct (fst p =? b); reflexivity. Qed.

Lemma wf_not_fresh m im b : wf m im -> len m b = 0 -> fst (ibase im) <> b.
Proof.
  intros H Hb E. pose proof (wf_hi _ _ H) as Hh. rewrite E, Hb in Hh. pose proof (wf_lo _ _ H). pose proof (wf_h _ _ H).
  pose proof (wf_rs_pos _ _ H). nia.
Qed.
Lemma wf_with_block m im b vs : wf m im -> len m b = 0 -> wf (with_block m b vs) im.
Proof.
  intros H Hb. pose proof (wf_not_fresh m im b H Hb) as Hn. destruct H. constructor; auto.
  rewrite with_block_len. destruct (Z.eqb_spec (fst (ibase im)) b); [contradiction|]. assumption.
Qed.
Lemma origin_fst im x y cc o : fst (padd (origin im x y cc) o) = fst (ibase im).
Proof. reflexivity. Qed.

(** A call on a memory with one more block, whose result is the value of the block. *)
Lemma with_array_run {A} fits m b vs (f : list nat -> Z -> mem -> res mem (mem * A)) (Q : mem * A -> Prop) :
  device_run fits (with_block m b vs) (fun s => f s b (with_block m b vs))
    (fun r => (forall p, fst p <> b -> get (fst r) p = get m p) /\ (forall b', b' <> b -> len (fst r) b' = len m b') /\
              forall M, same_mem m M -> Q (M, snd r)) ->
  device_run fits m (fun s => with_array m (Some b) vs (f s)) Q.
Proof.
  intros H. unfold with_array.
  assert (Hs : forall m', (forall p, fst p <> b -> get m' p = get m p) -> (forall b', b' <> b -> len m' b' = len m b') -> same_mem m (without_block m m' b)).
  { intros m' H1 H2. split.
    - intros p. rewrite without_block_get. destruct (Z.eqb_spec (fst p) b); auto.
    - intros b'. rewrite without_block_len. destruct (Z.eqb_spec b' b); auto. }
  destruct H as [(n & H1 & K & H2)|[H1 H2]].
  - left. exists n. split.
    + intros s. destruct (H1 s) as [->|([m' a] & -> & G1 & G2 & G3)]; [left; reflexivity|].
      right. eexists. split; [reflexivity|]. apply G3. apply Hs; assumption.
    + exists K. intros s Hks. specialize (H2 s Hks). destruct (f s b (with_block m b vs)) as [[]|?| |]; try discriminate. congruence.
  - right. split; [exact H1|]. intros s. destruct (H2 s) as (M & -> & S1 & S2). eexists. split; [reflexivity|].
    apply Hs.
    + intros p Hp. rewrite S1, with_block_get. destruct (Z.eqb_spec (fst p) b); [contradiction|reflexivity].
    + intros b' Hb'. rewrite S2, with_block_len. destruct (Z.eqb_spec b' b); [contradiction|reflexivity].
Qed.

(** The same with a writable memory outside the block (LookupTable). *)
Lemma with_array_writes fits m b vs (f : list nat -> Z -> mem -> res mem (mem * unit)) out xo yo w h val :
  wf m out -> len m b = 0 ->
  device_run fits (with_block m b vs) (fun s => f s b (with_block m b vs))
    (fun r => writes (@Ok mem mem (fst r)) (with_block m b vs) out xo yo w h val) ->
  device_run fits m (fun s => with_array m (Some b) vs (f s))
    (fun r => writes (@Ok mem mem (fst r)) m out xo yo w h val).
Proof.
  intros Wo Hb H. unfold with_array. pose proof (wf_not_fresh m out b Wo Hb) as Hn.
  destruct H as [(n & H1 & K & H2)|[H1 H2]].
  - left. exists n. split.
    + intros s. destruct (H1 s) as [->|([m' a] & -> & m2 & E & G1 & G2 & G3)]; [left; reflexivity|].
      cbn [fst] in E. injection E as <-. right. eexists. split; [reflexivity|]. cbn [fst].
      exists (without_block m m' b). split; [reflexivity|]. split; [|split].
      * intros i j c Hi. unfold pixel. rewrite without_block_get. unfold px at 1. cbn [fst].
        destruct (Z.eqb_spec (fst (ibase out)) b); [contradiction|]. apply G1, Hi.
      * intros b'. rewrite without_block_len. destruct (Z.eqb_spec b' b) as [->|Hb']; [reflexivity|].
        rewrite G2, with_block_len. destruct (Z.eqb_spec b' b); [contradiction|reflexivity].
      * intros p Hp. rewrite without_block_get. destruct (Z.eqb_spec (fst p) b) as [E|E]; [reflexivity|].
        rewrite G3 by assumption. rewrite with_block_get. destruct (Z.eqb_spec (fst p) b); [contradiction|reflexivity].
    + exists K. intros s Hks. specialize (H2 s Hks). destruct (f s b (with_block m b vs)) as [[]|?| |]; try discriminate. congruence.
  - right. split; [exact H1|]. intros s. destruct (H2 s) as (M & -> & S1 & S2). eexists. split; [reflexivity|]. split.
    + intros p. rewrite without_block_get. destruct (Z.eqb_spec (fst p) b) as [|Hp]; [reflexivity|].
      rewrite S1, with_block_get. destruct (Z.eqb_spec (fst p) b); [contradiction|reflexivity].
    + intros b'. rewrite without_block_len. destruct (Z.eqb_spec b' b) as [|Hp]; [reflexivity|].
      rewrite S2, with_block_len. destruct (Z.eqb_spec b' b); [contradiction|reflexivity].
Qed.

Lemma device_run_bind {A} fits m call (g : mem -> mem * A) (Q : mem * A -> Prop) :
  device_run fits m call (fun M => Q (g M)) ->
  device_run fits m (fun s => do M <- call s; Ok (g M)) Q.
Proof.
  intros [(n & H1 & K & H2)|[H1 H2]].
  - left. exists n. split.
    + intros s. destruct (H1 s) as [->|(M & -> & HQ)]; [left; reflexivity|]. right. eexists. split; [reflexivity|exact HQ].
    + exists K. intros s Hs. specialize (H2 s Hs). destruct (call s); cbn [bind]; congruence.
  - right. split; [exact H1|]. intros s. destruct (H2 s) as (M & -> & HM). exists M. split; [reflexivity|exact HM].
Qed.

Lemma block_values_length m b : length (block_values m b) = Z.to_nat (len m b).
Proof. unfold block_values, zrange. rewrite !map_length, seq_length. reflexivity. Qed.
Lemma block_values_nth m b i : 0 <= i < len m b -> nth (Z.to_nat i) (block_values m b) 0 = get m (b, i).
Proof.
  intros Hi. unfold block_values, zrange.
  rewrite (nth_indep _ 0 (get m (b, 0))) by (rewrite !map_length, seq_length; lia).
  rewrite (map_nth (fun o => get m (b, o)) _ 0). f_equal. f_equal.
  change 0 with (Z.of_nat 0). rewrite map_nth, seq_nth by lia. lia.
Qed.
Lemma nth_repeat_0 n i : nth i (repeat 0 n) 0 = 0.
Proof. revert i. induction n as [|n IH]; intros [|i]; cbn; auto. Qed.

(** Every thread adds [wt] to entry [idx] of the array. *)
Lemma sum_launch d m im xi yi w h b n (W : Z) k idx wt :
  device_ok d -> dStreams d = false -> area m im xi yi w h -> len m b = 0 -> 0 <= n ->
  0 < W <= w * icc im ->
  let m1 := with_block m b (repeat 0 (Z.to_nat n)) in
  (forall x y, ~ (x < W /\ y < h) -> k x y = PDone) ->
  (forall x y, 0 <= x < W -> 0 <= y < h ->
     k x y = PLoad (padd (origin im xi yi (icc im)) (y * irs im + x)) (fun a => PAtomic (padd (b, 0) (idx x y a)) (fun v => u32 (v + wt a)) PDone)) ->
  (forall x y, 0 <= x < W -> 0 <= y < h -> 0 <= idx x y (get m (padd (origin im xi yi (icc im)) (y * irs im + x))) < n) ->
  device_run (comfortable d W h) m1 (fun s => do M <- launch2D_get d s m1 W h k; Ok (M, block_values M b))
    (fun r => (forall p, fst p <> b -> get (fst r) p = get m p) /\ (forall b', b' <> b -> len (fst r) b' = len m b') /\
       forall M, same_mem m M -> same_mem m (fst (M, snd r)) /\ length (snd (M, snd r)) = Z.to_nat n /\
         forall v, 0 <= v < n -> nth (Z.to_nat v) (snd (M, snd r)) 0 =
           zsum h (fun j => zsum W (fun i => if v =? idx i j (get m (padd (origin im xi yi (icc im)) (j * irs im + i)))
             then wt (get m (padd (origin im xi yi (icc im)) (j * irs im + i))) else 0)) mod W32).
Proof.
  intros Hd Hst A Hb Hn HW m1 Hout Hk Hidx. pose proof A as [Wi R].
  destruct (area_small m im xi yi w h A) as (SW & Sw & Sh).
  pose proof (wf_not_fresh m im b Wi Hb) as Hne.
  assert (Eg : forall x y, get m1 (padd (origin im xi yi (icc im)) (y * irs im + x)) = get m (padd (origin im xi yi (icc im)) (y * irs im + x))).
  { intros x y. unfold m1. rewrite with_block_get, origin_fst. destruct (Z.eqb_spec (fst (ibase im)) b); [contradiction|reflexivity]. }
  assert (Lb : len m1 b = n). { unfold m1. rewrite with_block_len, Z.eqb_refl, repeat_length. lia. }
  apply device_run_bind. apply launch2D_run; [assumption|lia|lia| | | |assumption].
  - intros x y _ _ H. apply Hout, H.
  - intros x y Hx Hy. rewrite Hk by assumption. cbn [sound]. split; [|split].
    + apply (cell_inb m1 im xi yi w h); auto; [|lia]. apply wf_with_block; assumption.
    + intros (x' & y' & Hx' & Hy' & _ & E). rewrite Hk in E by assumption. destruct E as [E|[]].
      cbn [fst] in E. apply (f_equal fst) in E. rewrite origin_fst in E. cbn in E. congruence.
    + rewrite Eg. split; [|exact I]. apply inb_iff. cbn [padd fst snd]. rewrite Lb. specialize (Hidx x y Hx Hy). lia.
  - intros es HP. cbn [fst snd].
    set (cell := fun c : Z * Z => padd (b, 0) (idx (fst c) (snd c) (get m (padd (origin im xi yi (icc im)) (snd c * irs im + fst c))))).
    set (wt' := fun c : Z * Z => wt (get m (padd (origin im xi yi (icc im)) (snd c * irs im + fst c)))).
    assert (HP' : Permutation es (map (fun c => (cell c, fun v => u32 (v + wt' c))) (pairs W h))).
    { rewrite HP. unfold all_events. erewrite (flat_map_pairs_ext _ _ _ (fun c => [(cell c, fun v => u32 (v + wt' c))])).
      - induction (pairs W h) as [|c l IH]; cbn [flat_map map app]; auto.
      - intros x y Hx Hy. cbn [fst snd]. rewrite Hk by assumption. cbn [events]. rewrite Eg. reflexivity. }
    apply Permutation_map_inv in HP' as (cs & -> & HC).
    pose proof (apply_all_len (map (fun c => (cell c, fun v => u32 (v + wt' c))) cs) m1) as HL.
    split; [|split].
    + intros p Hp. rewrite apply_all_untouched.
      * unfold m1. rewrite with_block_get. destruct (Z.eqb_spec (fst p) b); [contradiction|reflexivity].
      * intros e He E. apply in_map_iff in He as (c & <- & _). cbn [fst] in E. apply Hp. rewrite <- E. reflexivity.
    + intros b' Hb'. rewrite HL. unfold m1. rewrite with_block_len. destruct (Z.eqb_spec b' b); [contradiction|reflexivity].
    + intros M HM. split; [exact HM|]. split; [rewrite block_values_length, HL, Lb; reflexivity|].
      intros v Hv. rewrite block_values_nth by (rewrite HL, Lb; lia). rewrite apply_sums.
      * unfold m1 at 1. rewrite with_block_get. cbn [fst snd]. rewrite Z.eqb_refl, nth_repeat_0, Z.add_0_l.
        rewrite <- (lsum_perm _ _ _ HC), lsum_pairs. unfold u32. f_equal.
        apply zsum_ext. intros j Hj. apply zsum_ext. intros i Hi. unfold cell, wt'. cbn [fst snd].
        replace (b, v) with (padd (b, 0) v) by reflexivity. rewrite ptr_eqb_padd. reflexivity.
      * unfold m1. rewrite with_block_get. cbn [fst snd]. rewrite Z.eqb_refl, nth_repeat_0. unfold W32. lia.
Qed.
