(** Proofs about the image container. *)
From Coq Require Import ZArith List Bool Lia.
From Verif Require Import Base Image Spec BaseProofs SafeProofs Container.
Import ListNotations.
Open Scope Z_scope.
Ltac Zify.zify_post_hook ::= Z.div_mod_to_equations.

(** Smallest multiple of [al] that is at least [n]. *)
Definition roundup (n al : Z) : Z := (n + al - 1) / al * al.

Lemma roundup_ge n al : 0 < al -> n <= roundup n al.
Proof. intros H. unfold roundup. nia. Qed.
Lemma roundup_nonneg n al : 0 < al -> 0 <= n -> 0 <= roundup n al.
Proof. intros H Hn. pose proof (roundup_ge n al H). lia. Qed.
Lemma roundup_0 al : 0 < al -> roundup 0 al = 0.
Proof. intros H. unfold roundup. rewrite (Z.div_small (0 + al - 1)) by lia. reflexivity. Qed.

Lemma row_size_ok w cc al : 0 <= w -> 0 < cc -> 0 < al -> roundup (w * cc) al < W32 ->
  row_size w cc al = roundup (w * cc) al.
Proof.
  intros Hw Hc Ha Hf. assert (0 <= w * cc) by nia. pose proof (roundup_ge (w * cc) al Ha).
  unfold row_size. rewrite (u32_small (w * cc)) by lia. set (n := w * cc) in *. clearbody n.
  unfold roundup in *.
  destruct (Z.eqb_spec (n mod al) 0) as [E|E]; cbn [negb].
  - pose proof (Z.div_mod n al ltac:(lia)) as D.
    assert (Eq : (n + al - 1) / al = n / al).
    { symmetry. apply (Z.div_unique (n + al - 1) al (n / al) (al - 1)); lia. }
    rewrite Eq. lia.
  - pose proof (Z.div_mod n al ltac:(lia)) as D. pose proof (Z.mod_pos_bound n al Ha) as B.
    assert (Eq : (n + al - 1) / al = n / al + 1).
    { symmetry. apply (Z.div_unique (n + al - 1) al (n / al + 1) (n mod al - 1)); lia. }
    rewrite Eq in *. rewrite (u32_small (n / al + 1)) by nia. apply u32_small. nia.
Qed.

(** What the container promises about one image. *)
Record img_ok (im : image) : Prop := mkImgOk {
  ok_cc : 0 < icc im;
  ok_al : 0 < ial im;
  ok_geo : forall p, idata im = Some p ->
    0 < iw im /\ 0 < ih im /\ irs im = roundup (iw im * icc im) (ial im) /\ irs im < W32;
  ok_empty : idata im = None -> 0 <= iw im /\ 0 <= ih im /\ (iw im = 0 \/ ih im = 0) /\
    irs im = roundup (iw im * icc im) (ial im)
}.
Definition owns (st : cstate) (a b : Z) : Prop :=
  exists im, cim st a = Some im /\ idata im = Some (b, 0).
Record cinv (st : cstate) : Prop := mkCinv {
  ci_img : forall a im, cim st a = Some im -> img_ok im;
  ci_buf : forall a im p, cim st a = Some im -> idata im = Some p ->
    snd p = 0 /\ clive st (fst p) = true /\ ih im * irs im <= len (cmem st) (fst p);
  ci_excl : forall a a' b, owns st a b -> owns st a' b -> a = a';
  ci_leak : forall b, clive st b = true -> exists a, owns st a b;
  ci_next : forall b, clive st b = true -> b < cnext st
}.

Lemma cinv_init m : cinv (cinit m).
Proof. constructor; unfold owns; cbn; try discriminate. intros a a' b (im & H & _). discriminate. Qed.

(** Arguments for which nothing exceeds 32 bits. *)
Definition fits (w h cc al : Z) : Prop :=
  0 <= w < W32 /\ 0 <= h < W32 /\ 0 <= cc < 256 /\ 0 <= al < 256 /\
  (0 < al -> roundup (w * cc) al < W32).
(** The states in which an operation may be called: its objects exist (do not exist yet),
    sizes fit 32 bits, writes are inside the image's rows. *)
Definition op_ok (st : cstate) (o : cop) : Prop :=
  match o with
  | CNew a ty w h cc al => cim st a = None /\ fits w h (if cc =? 0 then 1 else cc) (if al =? 0 then 1 else al)
  | CDelete a | CClear a | CFill a _ => cim st a <> None
  | CCopyCtor a b | CMoveCtor a b => cim st a = None /\ cim st b <> None
  | CCopy a b | CMove a b | CSwap a b => cim st a <> None /\ cim st b <> None
  | CResize a w h => exists im, cim st a = Some im /\ fits w h (icc im) (ial im)
  | CSetColorCount a cc => cim st a <> None /\ 0 <= cc < 256
  | CSetAlignment a al => cim st a <> None /\ 0 <= al < 256
  | CMutate a w h cc al => exists im, cim st a = Some im /\ fits w h cc al /\
      (0 < al -> roundup (w * cc) al * h < W32) /\ ih im * irs im < W32
  | CAssign a n w h cc al => cim st a <> None /\ fits w h cc al /\
      (0 < al -> h * roundup (w * cc) al <= n)
  | CWrite a k v => exists im p, cim st a = Some im /\ idata im = Some p /\ 0 <= k < ih im * irs im
  end.

(** ** Elementary steps *)
Lemma set_same st a im : cim (set_img st a im) a = im.
Proof. cbn. rewrite Z.eqb_refl. reflexivity. Qed.
Lemma set_other st a im b : b <> a -> cim (set_img st a im) b = cim st b.
Proof. intros H. cbn. destruct (Z.eqb_spec b a); [contradiction|reflexivity]. Qed.

Lemma img_rows im p : img_ok im -> idata im = Some p -> 0 < ih im * irs im.
Proof.
  intros [Hc Ha Hg _] Hp. destruct (Hg p Hp) as (Hw & Hh & Hr & _).
  pose proof (roundup_ge (iw im * icc im) (ial im) Ha). nia.
Qed.

(** Replace the object [a], which owns nothing, by another one that owns nothing. *)
Lemma cinv_set_none st a im : cinv st ->
  (forall im0, cim st a = Some im0 -> idata im0 = None) ->
  (forall im1, im = Some im1 -> img_ok im1 /\ idata im1 = None) ->
  cinv (set_img st a im).
Proof.
  intros [I1 I2 I3 I4 I5] H0 H1.
  assert (Ho : forall a' b, owns (set_img st a im) a' b <-> owns st a' b).
  { intros a' b. unfold owns. destruct (Z.eq_dec a' a) as [->|N].
    - rewrite set_same. split; intros (im' & E & D).
      + destruct (H1 im' E) as [_ D']. congruence.
      + rewrite (H0 im' E) in D. discriminate.
    - rewrite set_other by assumption. reflexivity. }
  constructor.
  - intros a' im' E. destruct (Z.eq_dec a' a) as [->|N].
    + rewrite set_same in E. apply (H1 im' E).
    + rewrite set_other in E by assumption. apply (I1 a' im' E).
  - intros a' im' p E D. destruct (Z.eq_dec a' a) as [->|N].
    + rewrite set_same in E. destruct (H1 im' E). congruence.
    + rewrite set_other in E by assumption. apply (I2 a' im' p E D).
  - intros a1 a2 b O1 O2. apply Ho in O1, O2. eauto.
  - intros b L. destruct (I4 b L) as (a' & O). exists a'. apply Ho. exact O.
  - exact I5.
Qed.

(** clear: the object keeps colour count, alignment and type and owns nothing. *)
Definition cleared (im : image) : image := mkImage 0 0 (icc im) (ial im) 0 None (ity im).
Lemma cleared_ok im : img_ok im -> img_ok (cleared im) /\ idata (cleared im) = None.
Proof.
  intros [Hc Ha _ _]. split; [|reflexivity]. constructor; cbn; auto; try discriminate.
  intros _. rewrite roundup_0 by assumption. lia.
Qed.

Definition frame (st st' : cstate) (S : Z -> Prop) : Prop :=
  forall b im, ~ S b -> cim st b = Some im ->
    cim st' b = Some im /\
    forall p, idata im = Some p -> len (cmem st') (fst p) = len (cmem st) (fst p) /\
      forall o, get (cmem st') (fst p, o) = get (cmem st) (fst p, o).
Lemma frame_refl st S : frame st st S.
Proof. intros b im _ E. auto. Qed.
Lemma frame_trans st1 st2 st3 S : frame st1 st2 S -> frame st2 st3 S -> frame st1 st3 S.
Proof.
  intros F1 F2 b im Hb E. destruct (F1 b im Hb E) as (E2 & M1). destruct (F2 b im Hb E2) as (E3 & M2).
  split; [exact E3|]. intros p Hp. destruct (M1 p Hp) as (L1 & G1). destruct (M2 p Hp) as (L2 & G2).
  split; [congruence|]. intros o. rewrite G2. apply G1.
Qed.
Lemma frame_set st a im : frame st (set_img st a im) (eq a).
Proof.
  intros b im' Hb E. rewrite set_other by auto. split; [exact E|]. intros p Hp. split; [reflexivity|]. reflexivity.
Qed.

Lemma clear_ok st a im : cinv st -> cim st a = Some im ->
  exists st', clear st a im = Ok st' /\ cinv st' /\ cim st' a = Some (cleared im) /\ frame st st' (eq a) /\
    (forall b, cim st b = None -> b <> a -> cim st' b = None) /\ cnext st' = cnext st.
Proof.
  intros I E. pose proof (cleared_ok im (ci_img _ I a im E)) as Hk. unfold clear.
  destruct (idata im) as [p|] eqn:D.
  2:{ cbn [bind]. eexists. split; [reflexivity|]. split; [|split; [apply set_same|split; [apply frame_set|split]]].
      - apply cinv_set_none; auto. + intros im0 E0. congruence. + intros im1 E1. injection E1 as <-. exact Hk.
      - intros b Hb N. rewrite set_other; assumption.
      - reflexivity. }
  destruct (ci_buf _ I a im p E D) as (Hs & Hl & Hlen). unfold dealloc. rewrite Hl, Hs. cbn [bind andb Z.eqb].
  destruct p as [pb po]. cbn [fst snd] in *. subst po.
  assert (Hown : owns st a pb) by (exists im; auto).
  eexists. split; [reflexivity|]. split; [|split; [apply set_same|split; [|split]]].
  - set (st1 := mkC _ _ _ _). change (mkImage 0 0 (icc im) (ial im) 0 None (ity im)) with (cleared im).
    assert (Ho : forall a' b, owns (set_img st1 a (Some (cleared im))) a' b <-> owns st a' b /\ a' <> a).
    { intros a' b. unfold owns. destruct (Z.eq_dec a' a) as [->|N].
      - rewrite set_same. split; [|intros [_ H]; exfalso; auto]. intros (im' & E' & D'). injection E' as <-. discriminate.
      - rewrite set_other by assumption. cbn [cim st1]. split; [intros H; split; assumption|intros [H _]; exact H]. }
    constructor.
    + intros a' im' E'. destruct (Z.eq_dec a' a) as [->|N].
      * rewrite set_same in E'. injection E' as <-. apply Hk.
      * rewrite set_other in E' by assumption. apply (ci_img _ I a' im' E').
    + intros a' im' q E' D'. destruct (Z.eq_dec a' a) as [->|N].
      * rewrite set_same in E'. injection E' as <-. discriminate.
      * rewrite set_other in E' by assumption. destruct (ci_buf _ I a' im' q E' D') as (? & ? & ?).
        assert (Nb : fst q <> pb).
        { intros Eb. apply N. apply (ci_excl _ I a' a pb); [|exact Hown]. exists im'. split; [exact E'|].
          rewrite D'. f_equal. destruct q; cbn in *; congruence. }
        unfold len. cbn. destruct (Z.eqb_spec (fst q) pb); [contradiction|]. auto.
    + intros a1 a2 b O1 O2. apply Ho in O1 as [O1 _], O2 as [O2 _]. apply (ci_excl _ I a1 a2 b O1 O2).
    + intros b L. cbn in L. destruct (Z.eqb_spec b pb) as [|Nb]; [discriminate|].
      destruct (ci_leak _ I b L) as (a' & O). exists a'. apply Ho. split; [exact O|].
      intros ->. destruct O as (im' & E' & D'). congruence.
    + intros b L. cbn in L. destruct (Z.eqb_spec b pb); [discriminate|]. apply (ci_next _ I b L).
  - intros b im' Hb E'. rewrite set_other by auto. split; [exact E'|]. intros q Hq.
    assert (Nb : fst q <> pb).
    { intros Eb. apply Hb. symmetry. apply (ci_excl _ I b a pb); [|exact Hown]. exists im'. split; [exact E'|].
      rewrite Hq. f_equal. destruct (ci_buf _ I b im' q E' Hq) as (? & _). destruct q; cbn in *; congruence. }
    unfold len, get. cbn. destruct (Z.eqb_spec (fst q) pb); [contradiction|]. auto.
  - intros b Hb N. rewrite set_other by assumption. exact Hb.
  - reflexivity.
Qed.

(** Give the object [a], which owns nothing, a new buffer. *)
Lemma alloc_set_ok st a im0 im n : cinv st -> cim st a = Some im0 -> idata im0 = None ->
  img_ok im -> idata im = Some (cnext st, 0) -> ih im * irs im <= n ->
  cinv (set_img (fst (alloc st n)) a (Some im)) /\ frame st (set_img (fst (alloc st n)) a (Some im)) (eq a).
Proof.
  intros I E0 D0 Hok Hd Hn. unfold alloc. cbn [fst]. set (st1 := mkC _ _ _ _).
  assert (Hnew : forall b, owns st b (cnext st) -> False).
  { intros b (im' & E' & D'). destruct (ci_buf _ I b im' _ E' D') as (_ & L & _). cbn in L.
    pose proof (ci_next _ I _ L). lia. }
  assert (Ho : forall a' b, owns (set_img st1 a (Some im)) a' b <-> (a' = a /\ b = cnext st) \/ owns st a' b).
  { intros a' b. unfold owns. destruct (Z.eq_dec a' a) as [->|N].
    - rewrite set_same. split.
      + intros (im' & E' & D'). injection E' as <-. left. split; [reflexivity|]. congruence.
      + intros [[_ ->]|(im' & E' & D')]; [exists im; auto|]. congruence.
    - rewrite set_other by assumption. cbn [cim st1]. split; [intros H; right; exact H|].
      intros [[H _]|H]; [contradiction|exact H]. }
  split.
  - constructor.
    + intros a' im' E'. destruct (Z.eq_dec a' a) as [->|N].
      * rewrite set_same in E'. injection E' as <-. exact Hok.
      * rewrite set_other in E' by assumption. apply (ci_img _ I a' im' E').
    + intros a' im' q E' D'. destruct (Z.eq_dec a' a) as [->|N].
      * rewrite set_same in E'. injection E' as <-. rewrite Hd in D'. injection D' as <-. cbn [fst snd].
        unfold len. cbn. rewrite !Z.eqb_refl. cbn. auto.
      * rewrite set_other in E' by assumption. cbn [cim st1] in E'. destruct (ci_buf _ I a' im' q E' D') as (? & L & ?).
        pose proof (ci_next _ I _ L). unfold len. cbn. destruct (Z.eqb_spec (fst q) (cnext st)); [lia|]. auto.
    + intros a1 a2 b O1 O2. apply Ho in O1, O2.
      destruct O1 as [[E1 B1]|O1], O2 as [[E2 B2]|O2].
      * congruence.
      * subst b. destruct (Hnew _ O2).
      * subst b. destruct (Hnew _ O1).
      * apply (ci_excl _ I a1 a2 b O1 O2).
    + intros b L. cbn in L. destruct (Z.eqb_spec b (cnext st)) as [Eb|N].
      * exists a. apply Ho. left. auto.
      * destruct (ci_leak _ I b L) as (a' & O). exists a'. apply Ho. right. exact O.
    + intros b L. cbn in L |- *. destruct (Z.eqb_spec b (cnext st)) as [Eb|N]; [lia|].
      pose proof (ci_next _ I b L). lia.
  - intros b im' Hb E'. rewrite set_other by auto. split; [exact E'|]. intros q Hq.
    destruct (ci_buf _ I b im' q E' Hq) as (_ & L & _). pose proof (ci_next _ I _ L).
    unfold len, get. cbn. destruct (Z.eqb_spec (fst q) (cnext st)); [lia|]. auto.
Qed.

(** Same objects, memory of the same sizes. *)
Lemma cinv_mem st m : cinv st -> (forall b, len m b = len (cmem st) b) ->
  cinv (mkC (cim st) m (clive st) (cnext st)).
Proof.
  intros [I1 I2 I3 I4 I5] L. constructor; auto. intros a im p E D. destruct (I2 a im p E D) as (? & ? & ?).
  cbn. rewrite L. auto.
Qed.

Lemma resize_ok st a im w h : cinv st -> cim st a = Some im -> fits w h (icc im) (ial im) ->
  exists st', resize st a im w h = Ok st' /\ cinv st' /\ frame st st' (eq a) /\
    (forall b, b <> a -> cim st b = None -> cim st' b = None) /\
    (0 < w -> 0 < h -> exists im', cim st' a = Some im' /\ iw im' = w /\ ih im' = h /\
       icc im' = icc im /\ ial im' = ial im /\ ity im' = ity im /\
       (idata im <> None -> idata im' <> None)) /\ exists im', cim st' a = Some im'.
Proof.
  intros I E (Hw & Hh & Hc & Ha & Hf). unfold resize.
  pose proof (ci_img _ I a im E) as Hok.
  destruct ((0 <? w) && (0 <? h) && (negb (w =? iw im) || negb (h =? ih im))) eqn:G.
  - apply andb_prop in G as [G _]. apply andb_prop in G as [Gw Gh]. apply Z.ltb_lt in Gw, Gh.
    destruct (clear_ok st a im I E) as (st1 & -> & I1 & E1 & F1 & N1 & Nx). cbn [bind alloc].
    rewrite row_size_ok by (try apply Hf; try lia; apply Hok).
    set (im' := mkImage w h (icc im) (ial im) (roundup (w * icc im) (ial im)) (Some (cnext st1, 0)) (ity im)).
    destruct (alloc_set_ok st1 a (cleared im) im' (h * roundup (w * icc im) (ial im)) I1 E1 eq_refl) as (I2 & F2).
    + constructor; cbn; try apply Hok; try discriminate. intros p _. pose proof (ok_al _ Hok). auto.
    + reflexivity.
    + cbn. lia.
    + unfold alloc in I2, F2. cbn [fst] in I2, F2. eexists. split; [reflexivity|]. split; [exact I2|].
      split; [apply (frame_trans _ st1); assumption|]. split; [|split].
      * intros b N Eb. rewrite set_other by assumption. cbn. apply N1; assumption.
      * intros _ _. exists im'. rewrite set_same. repeat split; auto. discriminate.
      * exists im'. apply set_same.
  - eexists. split; [reflexivity|]. split; [exact I|]. split; [apply frame_refl|]. split; [auto|]. split; [|eauto].
    intros Gw Gh. exists im. split; [exact E|].
    apply Z.ltb_lt in Gw, Gh. rewrite Gw, Gh in G. cbn [andb] in G. apply orb_false_elim in G as [G1 G2].
    apply negb_false_iff in G1, G2. apply Z.eqb_eq in G1, G2. auto 10.
Qed.

Lemma set_geo_ok st a im cc al : cinv st -> cim st a = Some im -> 0 < cc -> 0 < al ->
  exists st1, clear st a im = Ok st1 /\
    let st' := set_img st1 a (Some (mkImage 0 0 cc al 0 None (ity im))) in
    cinv st' /\ frame st st' (eq a) /\ (forall b, b <> a -> cim st b = None -> cim st' b = None).
Proof.
  intros I E Hc Ha. destruct (clear_ok st a im I E) as (st1 & E1 & I1 & C1 & F1 & N1 & _).
  exists st1. split; [exact E1|]. cbv zeta. split; [|split].
  - apply cinv_set_none; auto.
    + intros im0 E0. rewrite C1 in E0. injection E0 as <-. reflexivity.
    + intros im1 H. injection H as <-. split; [|reflexivity]. constructor; cbn; auto; try discriminate.
      intros _. rewrite roundup_0 by assumption. lia.
  - apply (frame_trans _ st1); [exact F1|apply frame_set].
  - intros b N Eb. rewrite set_other by assumption. auto.
Qed.
Lemma setColorCount_ok st a im cc : cinv st -> cim st a = Some im -> 0 <= cc ->
  exists st', setColorCount st a im cc = Ok st' /\ cinv st' /\ frame st st' (eq a) /\
    (forall b, b <> a -> cim st b = None -> cim st' b = None) /\
    exists im', cim st' a = Some im' /\ icc im' = (if cc =? 0 then icc im else cc) /\ ial im' = ial im /\ ity im' = ity im.
Proof.
  intros I E Hc. unfold setColorCount. destruct ((0 <? cc) && negb (icc im =? cc)) eqn:G.
  - apply andb_prop in G as [G1 _]. apply Z.ltb_lt in G1.
    destruct (set_geo_ok st a im cc (ial im) I E G1 (ok_al _ (ci_img _ I a im E))) as (st1 & -> & I' & F' & N').
    cbn [bind]. eexists. split; [reflexivity|]. split; [exact I'|]. split; [exact F'|]. split; [exact N'|].
    eexists. split; [apply set_same|]. cbn. destruct (Z.eqb_spec cc 0); [lia|]. auto.
  - eexists. split; [reflexivity|]. split; [exact I|]. split; [apply frame_refl|]. split; [auto|].
    exists im. split; [exact E|]. destruct (Z.eqb_spec cc 0) as [->|N]; auto.
    destruct (Z.ltb_spec 0 cc); [|lia]. cbn [andb] in G. apply negb_false_iff, Z.eqb_eq in G. auto.
Qed.
Lemma setAlignment_ok st a im al : cinv st -> cim st a = Some im -> 0 <= al ->
  exists st', setAlignment st a im al = Ok st' /\ cinv st' /\ frame st st' (eq a) /\
    (forall b, b <> a -> cim st b = None -> cim st' b = None) /\
    exists im', cim st' a = Some im' /\ ial im' = (if al =? 0 then ial im else al) /\ icc im' = icc im /\ ity im' = ity im.
Proof.
  intros I E Hc. unfold setAlignment. destruct ((0 <? al) && negb (al =? ial im)) eqn:G.
  - apply andb_prop in G as [G1 _]. apply Z.ltb_lt in G1.
    destruct (set_geo_ok st a im (icc im) al I E (ok_cc _ (ci_img _ I a im E)) G1) as (st1 & -> & I' & F' & N').
    cbn [bind]. eexists. split; [reflexivity|]. split; [exact I'|]. split; [exact F'|]. split; [exact N'|].
    eexists. split; [apply set_same|]. cbn. destruct (Z.eqb_spec al 0); [lia|]. auto.
  - eexists. split; [reflexivity|]. split; [exact I|]. split; [apply frame_refl|]. split; [auto|].
    exists im. split; [exact E|]. destruct (Z.eqb_spec al 0) as [->|N]; auto.
    destruct (Z.ltb_spec 0 al); [|lia]. cbn [andb] in G. apply negb_false_iff, Z.eqb_eq in G. auto.
Qed.

(** memcpy between two different blocks *)
Lemma stores_block {E} : forall n (m : mem) b o vs, length vs = n -> 0 <= o -> o + Z.of_nat n <= len m b ->
  exists m', @stores E m (span (b, o) n) vs = Ok m' /\ (forall b', len m' b' = len m b') /\
    (forall k, 0 <= k < Z.of_nat n -> get m' (b, o + k) = nth (Z.to_nat k) vs 0) /\
    (forall p, fst p <> b \/ snd p < o \/ o + Z.of_nat n <= snd p -> get m' p = get m p).
Proof.
  induction n as [|n IH]; intros m b o vs Hl Ho Hle.
  - exists m. split; [destruct vs; reflexivity|]. split; [reflexivity|]. split; [intros; lia|reflexivity].
  - destruct vs as [|v vs]; [discriminate|]. cbn in Hl. injection Hl as Hl. cbn [span stores].
    unfold store at 1. assert (Hi : inb m (b, o) = true).
    { unfold inb. cbn. apply andb_true_intro. split; [apply Z.leb_le|apply Z.ltb_lt]; lia. }
    rewrite Hi. cbn [bind]. change (padd (b, o) 1) with (b, o + 1).
    destruct (IH (upd m (b, o) v) b (o + 1) vs Hl) as (m' & E1 & L1 & V1 & F1); [lia|rewrite len_upd; lia|].
    exists m'. split; [exact E1|]. split; [intros b'; rewrite L1; apply len_upd|]. split.
    + intros k Hk. destruct (Z.eq_dec k 0) as [->|N].
      * rewrite F1 by (cbn; lia). rewrite Z.add_0_r. rewrite get_upd_same. reflexivity.
      * replace (o + k) with (o + 1 + (k - 1)) by lia. rewrite V1 by lia.
        replace (Z.to_nat k) with (S (Z.to_nat (k - 1))) by lia. reflexivity.
    + intros p Hp. rewrite F1 by (cbn in *; lia). apply get_upd_other. intros ->. cbn in Hp. lia.
Qed.
Lemma loads_block {E} : forall n (m : mem) b o, 0 <= o -> o + Z.of_nat n <= len m b ->
  exists vs, @loads E m (span (b, o) n) = Ok vs /\ length vs = n /\
    forall k, 0 <= k < Z.of_nat n -> nth (Z.to_nat k) vs 0 = get m (b, o + k).
Proof.
  induction n as [|n IH]; intros m b o Ho Hle.
  - exists []. split; [reflexivity|]. split; [reflexivity|]. intros; lia.
  - cbn [span loads]. unfold load at 1. assert (Hi : inb m (b, o) = true).
    { unfold inb. cbn. apply andb_true_intro. split; [apply Z.leb_le|apply Z.ltb_lt]; lia. }
    rewrite Hi. cbn [bind]. change (padd (b, o) 1) with (b, o + 1).
    destruct (IH m b (o + 1)) as (vs & -> & Hl & Hv); [lia|lia|]. cbn [bind].
    exists (get m (b, o) :: vs). split; [reflexivity|]. split; [cbn; congruence|].
    intros k Hk. destruct (Z.eq_dec k 0) as [->|N]; [rewrite Z.add_0_r; reflexivity|].
    replace (Z.to_nat k) with (S (Z.to_nat (k - 1))) by lia. cbn [nth]. rewrite Hv by lia. do 2 f_equal. lia.
Qed.
Lemma memcpy_blocks {E} m d s n : d <> s -> 0 <= n -> n <= len m d -> n <= len m s ->
  exists m', @memcpy E m (d, 0) (s, 0) n = Ok m' /\ (forall b, len m' b = len m b) /\
    (forall k, 0 <= k < n -> get m' (d, k) = get m (s, k)) /\
    (forall p, fst p <> d -> get m' p = get m p).
Proof.
  intros N Hn Hd Hs. unfold memcpy, overlaps. cbn [fst]. destruct (Z.eqb_spec d s); [contradiction|]. cbn [andb].
  destruct (@loads_block E (Z.to_nat n) m s 0) as (vs & -> & Hl & Hv); [lia|lia|]. cbn [bind].
  destruct (@stores_block E (Z.to_nat n) m d 0 vs Hl) as (m' & E1 & L1 & V1 & F1); [lia|lia|].
  exists m'. split; [exact E1|]. split; [exact L1|]. split.
  - intros k Hk. specialize (V1 k ltac:(lia)). rewrite Z.add_0_l in V1. rewrite V1.
    rewrite Hv by lia. reflexivity.
  - intros p Hp. apply F1. left. exact Hp.
Qed.
Lemma memset_block {E} m d v n : 0 <= n -> n <= len m d ->
  exists m', @memset E m (d, 0) v n = Ok m' /\ (forall b, len m' b = len m b) /\
    (forall k, 0 <= k < n -> get m' (d, k) = v) /\
    (forall p, fst p <> d -> get m' p = get m p).
Proof.
  intros Hn Hd. unfold memset.
  destruct (@stores_block E (Z.to_nat n) m d 0 (repeat v (Z.to_nat n))) as (m' & E1 & L1 & V1 & F1);
    [apply repeat_length|lia|lia|].
  exists m'. split; [exact E1|]. split; [exact L1|]. split.
  - intros k Hk. specialize (V1 k ltac:(lia)). rewrite Z.add_0_l in V1. rewrite V1.
    apply nth_repeat_lt || (rewrite nth_indep with (d' := v) by (rewrite repeat_length; lia); apply nth_repeat).
  - intros p Hp. apply F1. left. exact Hp.
Qed.

(** copy from another object: equal geometry and contents, separate buffers *)
Definition same_contents (m : mem) (p : ptr) (m' : mem) (q : ptr) (n : Z) : Prop :=
  forall k, 0 <= k < n -> get m (padd p k) = get m' (padd q k).
Lemma copy_ok st a im b src : cinv st -> cim st a = Some im -> cim st b = Some src -> a <> b -> ity im = ity src ->
  exists st' im', copy st a im b src = Ok st' /\ cinv st' /\ frame st st' (eq a) /\
    (forall c, c <> a -> cim st c = None -> cim st' c = None) /\ cim st' a = Some im' /\
    iw im' = iw src /\ ih im' = ih src /\ icc im' = icc src /\ ial im' = ial src /\ irs im' = irs src /\
    ity im' = ity src /\
    match idata im', idata src with
    | Some p, Some q => fst p <> fst q /\ same_contents (cmem st') p (cmem st) q (ih src * irs src)
    | None, None => True
    | _, _ => False
    end.
Proof.
  intros I Ea Eb N T. unfold copy. rewrite T, Z.eqb_refl.
  destruct (clear_ok st a im I Ea) as (st1 & -> & I1 & C1 & F1 & N1 & _). cbn [bind].
  destruct (F1 b src N Eb) as (Eb1 & M1). rewrite Eb1.
  pose proof (ci_img _ I1 b src Eb1) as Hok.
  destruct (idata src) as [q|] eqn:D.
  2:{ eexists. eexists. split; [reflexivity|]. split; [|split; [|split; [|split; [apply set_same|]]]].
      - apply cinv_set_none; auto.
        + intros im0 E0. rewrite C1 in E0. injection E0 as <-. reflexivity.
        + intros im1 H. injection H as <-. split; [|reflexivity]. destruct Hok. constructor; cbn; auto; discriminate.
      - apply (frame_trans _ st1); [exact F1|apply frame_set].
      - intros c Nc Ec. rewrite set_other by assumption. auto.
      - cbn. auto 10. }
  cbn [alloc].
  destruct (ci_buf _ I1 b src q Eb1 D) as (Hq0 & Hlive & Hlen).
  pose proof (ci_next _ I1 _ Hlive) as Hnx. pose proof (img_rows src q Hok D) as Hrows.
  set (n := ih src * irs src) in *.
  set (m2 := fun k => if k =? cnext st1 then mkBlock n (bget (cmem st1 (cnext st1))) else cmem st1 k).
  destruct q as [qb qo]. cbn [fst snd] in *. subst qo.
  assert (Lq : len m2 qb = len (cmem st1) qb).
  { unfold len, m2. destruct (Z.eqb_spec qb (cnext st1)); [lia|reflexivity]. }
  destruct (@memcpy_blocks cstate m2 (cnext st1) qb n) as (m3 & E3 & L3 & V3 & F3); [lia|lia| |lia|].
  { unfold len, m2. rewrite Z.eqb_refl. cbn. lia. }
  fold m2. cbn [cmem cim clive cnext]. rewrite E3. cbn [bind].
  set (im' := mkImage (iw src) (ih src) (icc src) (ial src) (irs src) (Some (cnext st1, 0)) (ity src)).
  destruct (alloc_set_ok st1 a (cleared im) im' n I1 C1 eq_refl) as (I2 & F2).
  { destruct Hok as [Hc Ha Hg He]. constructor; cbn; auto; try discriminate. intros p _. apply (Hg _ D). }
  { reflexivity. }
  { cbn. unfold n. lia. }
  unfold alloc in I2, F2. cbn [fst] in I2, F2. fold m2 in I2, F2.
  eexists. exists im'. split; [reflexivity|]. split; [|split; [|split; [|split; [apply set_same|]]]].
  - apply (cinv_mem _ m3 I2). exact L3.
  - apply (frame_trans _ st1); [exact F1|]. intros c imc Hc Ec. destruct (F2 c imc Hc Ec) as (Ec2 & M2).
    split; [exact Ec2|]. intros p Hp. destruct (M2 p Hp) as (Lp & Gp). cbn [cmem set_img] in Lp, Gp |- *.
    split; [rewrite L3; exact Lp|]. intros o. rewrite F3; [apply Gp|]. cbn.
    destruct (ci_buf _ I1 c imc p Ec Hp) as (_ & Lc & _). pose proof (ci_next _ I1 _ Lc). lia.
  - intros c Nc Ec. rewrite set_other by assumption. cbn. auto.
  - cbn. repeat (split; [reflexivity|]). split; [lia|].
    intros k Hk. unfold padd. cbn [fst snd]. rewrite !Z.add_0_l. rewrite V3 by assumption.
    destruct (M1 (qb, 0) eq_refl) as (_ & G1). cbn [fst] in G1. rewrite <- G1.
    unfold get, m2. cbn [fst snd]. destruct (Z.eqb_spec qb (cnext st1)); [lia|reflexivity].
Qed.

Lemma copy_self_ok st a im : cinv st -> cim st a = Some im ->
  exists st', copy st a im a im = Ok st' /\ cinv st' /\ frame st st' (eq a) /\ cim st' a = Some (cleared im).
Proof.
  intros I E. unfold copy. rewrite Z.eqb_refl.
  destruct (clear_ok st a im I E) as (st1 & -> & I1 & C1 & F1 & N1 & _). cbn [bind]. rewrite C1. cbn.
  eexists. split; [reflexivity|]. split; [|split].
  - apply cinv_set_none; auto.
    + intros im0 E0. rewrite C1 in E0. injection E0 as <-. reflexivity.
    + intros im1 H. injection H as <-. apply (cleared_ok im (ci_img _ I a im E)).
  - apply (frame_trans _ st1); [exact F1|apply frame_set].
  - rewrite set_same. reflexivity.
Qed.

Lemma swap_ok st a b ia ib : cinv st -> cim st a = Some ia -> cim st b = Some ib ->
  cinv (swap st a b ia ib) /\ frame st (swap st a b ia ib) (fun c => c = a \/ c = b) /\
  cim (swap st a b ia ib) a = Some (if a =? b then ia else ib) /\ cim (swap st a b ia ib) b = Some ia.
Proof.
  intros I Ea Eb.
  assert (Hc : forall c, cim (swap st a b ia ib) c = if c =? b then Some ia else if c =? a then Some ib else cim st c)
    by reflexivity.
  (* the swapped name *)
  set (f := fun c => if c =? b then a else if c =? a then b else c).
  assert (Hf : forall c, cim (swap st a b ia ib) c = cim st (f c)).
  { intros c. rewrite Hc. unfold f. destruct (c =? b); [auto|]. destruct (c =? a); auto. }
  assert (Inj : forall c d, f c = f d -> c = d).
  { intros c d. unfold f. destruct (Z.eqb_spec c b), (Z.eqb_spec d b), (Z.eqb_spec c a), (Z.eqb_spec d a); congruence. }
  assert (Inv : forall c, f (f c) = c).
  { intros c. unfold f. destruct (Z.eqb_spec c b) as [->|]; [destruct (Z.eqb_spec a b); [congruence|rewrite Z.eqb_refl; reflexivity]|].
    destruct (Z.eqb_spec c a) as [->|]; [rewrite Z.eqb_refl; reflexivity|].
    destruct (Z.eqb_spec c b); [congruence|]. destruct (Z.eqb_spec c a); congruence. }
  assert (Ho : forall c d, owns (swap st a b ia ib) c d <-> owns st (f c) d).
  { intros c d. unfold owns. rewrite Hf. reflexivity. }
  split; [|split; [|split]].
  - constructor.
    + intros c im. rewrite Hf. apply (ci_img _ I).
    + intros c im p. rewrite Hf. apply (ci_buf _ I).
    + intros c c' d O O'. apply Ho in O, O'. apply Inj. apply (ci_excl _ I _ _ d O O').
    + intros d L. destruct (ci_leak _ I d L) as (c & O). exists (f c). apply Ho. rewrite Inv. exact O.
    + apply (ci_next _ I).
  - intros c im Hn E. rewrite Hc. destruct (Z.eqb_spec c b); [exfalso; auto|]. destruct (Z.eqb_spec c a); [exfalso; auto|].
    split; [exact E|]. intros p _. split; [reflexivity|]. reflexivity.
  - rewrite Hc. destruct (Z.eqb_spec a b); [reflexivity|]. rewrite Z.eqb_refl. reflexivity.
  - rewrite Hc. rewrite Z.eqb_refl. reflexivity.
Qed.

Lemma new_ok st a ty : cinv st -> cim st a = None ->
  new_img st a ty = Ok (set_img st a (Some (default_image ty))) /\
  cinv (set_img st a (Some (default_image ty))) /\
  frame st (set_img st a (Some (default_image ty))) (eq a).
Proof.
  intros I E. unfold new_img. rewrite E. split; [reflexivity|]. split; [|apply frame_set].
  apply cinv_set_none; auto.
  - intros im0 E0. congruence.
  - intros im1 H. injection H as <-. split; [|reflexivity]. constructor; cbn; try lia; try discriminate.
Qed.

(** The objects an operation names. *)
Definition touches (o : cop) (c : Z) : Prop :=
  match o with
  | CNew a _ _ _ _ _ | CDelete a | CResize a _ _ | CClear a | CSetColorCount a _ | CSetAlignment a _
  | CMutate a _ _ _ _ | CAssign a _ _ _ _ _ | CFill a _ | CWrite a _ _ => c = a
  | CCopyCtor a b | CCopy a b => c = a
  | CMoveCtor a b | CMove a b | CSwap a b => c = a \/ c = b
  end.
Lemma frame_weaken st st' (S S' : Z -> Prop) : (forall b, S b -> S' b) -> frame st st' S -> frame st st' S'.
Proof. intros H F b im N E. apply F; auto. Qed.
Lemma frame_eq st st' a (S : Z -> Prop) : S a -> frame st st' (eq a) -> frame st st' S.
Proof. intros H. apply frame_weaken. intros b <-. exact H. Qed.

Lemma mutate_ok im w h cc al : img_ok im -> fits w h cc al ->
  (0 < al -> roundup (w * cc) al * h < W32) -> ih im * irs im < W32 ->
  img_ok (fst (mutate im w h cc al)) /\ idata (fst (mutate im w h cc al)) = idata im /\
  (idata im <> None -> ih (fst (mutate im w h cc al)) * irs (fst (mutate im w h cc al)) = ih im * irs im).
Proof.
  intros Hok (Hw & Hh & Hc & Ha & Hf) Hs Hi. unfold mutate.
  destruct ((0 <? cc) && (0 <? al)) eqn:G; [|cbn; auto].
  apply andb_prop in G as [G1 G2]. apply Z.ltb_lt in G1, G2.
  rewrite row_size_ok by (try apply Hf; lia). specialize (Hs G2). specialize (Hf G2).
  pose proof (roundup_nonneg (w * cc) al G2 ltac:(nia)) as Hr.
  assert (Hnn : 0 <= irs im * ih im).
  { destruct (idata im) as [p|] eqn:D.
    - pose proof (img_rows im p Hok D). nia.
    - destruct (ok_empty _ Hok D) as (? & ? & ? & ->).
      pose proof (roundup_nonneg (iw im * icc im) (ial im) (ok_al _ Hok)). pose proof (ok_cc _ Hok). nia. }
  rewrite (u32_small (roundup (w * cc) al * h)) by nia. rewrite (u32_small (irs im * ih im)) by nia.
  destruct (Z.eqb_spec (roundup (w * cc) al * h) (irs im * ih im)) as [E|E]; cbn [negb fst]; [|auto].
  split; [|split; [reflexivity|cbn; intros _; lia]].
  constructor; cbn; auto.
  - intros p D. pose proof (img_rows im p Hok D).
    assert (0 < h) by nia. assert (0 < roundup (w * cc) al) by nia.
    assert (0 < w).
    { destruct (Z.eq_dec w 0) as [->|]; [|lia]. cbn in *. rewrite roundup_0 in * by assumption. lia. }
    auto.
  - intros D. destruct (ok_empty _ Hok D) as (H1 & H2 & H3 & H4).
    assert (Ez : roundup (w * cc) al * h = 0).
    { rewrite E. destruct H3 as [H3|H3]; [|rewrite H3; lia].
      rewrite H4, H3. cbn. rewrite roundup_0 by apply Hok. reflexivity. }
    split; [lia|]. split; [lia|]. split; [|reflexivity].
    pose proof (roundup_ge (w * cc) al G2). nia.
Qed.

(** Replacing the description of the buffer a keeps. *)
Lemma cinv_set_keep st a im im' : cinv st -> cim st a = Some im -> img_ok im' -> idata im' = idata im ->
  (idata im <> None -> ih im' * irs im' = ih im * irs im) -> cinv (set_img st a (Some im')).
Proof.
  intros [I1 I2 I3 I4 I5] E Hok Hd Hsz.
  assert (Ho : forall a' b, owns (set_img st a (Some im')) a' b <-> owns st a' b).
  { intros a' b. unfold owns. destruct (Z.eq_dec a' a) as [->|N].
    - rewrite set_same. split; intros (x & Ex & D).
      + injection Ex as <-. exists im. split; [exact E|congruence].
      + exists im'. split; [reflexivity|congruence].
    - rewrite set_other by assumption. reflexivity. }
  constructor.
  - intros a' x Ex. destruct (Z.eq_dec a' a) as [->|N].
    + rewrite set_same in Ex. injection Ex as <-. exact Hok.
    + rewrite set_other in Ex by assumption. apply (I1 a' x Ex).
  - intros a' x p Ex D. destruct (Z.eq_dec a' a) as [->|N].
    + rewrite set_same in Ex. injection Ex as <-. rewrite Hd in D. rewrite Hsz by congruence. apply (I2 a im p E D).
    + rewrite set_other in Ex by assumption. apply (I2 a' x p Ex D).
  - intros a1 a2 b O1 O2. apply Ho in O1, O2. eauto.
  - intros b L. destruct (I4 b L) as (a' & O). exists a'. apply Ho. exact O.
  - exact I5.
Qed.

(** Every operation returns or throws, keeps the invariant and leaves all objects it does not
    name as they are. *)
Lemma cstep_ok st o : cinv st -> op_ok st o ->
  exists st', (cstep st o = Ok st' \/ (cstep st o = Throw st' /\ st' = st)) /\ cinv st' /\ frame st st' (touches o).
Proof.
  intros I Hop. destruct o as [a ty w h cc al|a|a b|a b|a b|a b|a b|a w h|a|a cc|a al|a w h cc al|a n w h cc al|a v|a k v];
    cbn [cstep op_ok touches] in *.
  - destruct Hop as (E & F). destruct (new_ok st a ty I E) as (-> & I1 & F1). cbn [bind].
    unfold with_img at 1. rewrite set_same.
    assert (Hcc : 0 <= cc < 256 /\ 0 <= al < 256) by (destruct F as (_ & _ & F & F' & _); destruct (Z.eqb_spec cc 0), (Z.eqb_spec al 0); lia).
    destruct (setColorCount_ok _ a (default_image ty) cc I1 (set_same _ _ _)) as (st2 & -> & I2 & F2 & _ & im2 & E2 & C2 & A2 & _); [lia|].
    cbn [bind]. unfold with_img at 1. rewrite E2.
    destruct (setAlignment_ok st2 a im2 al I2 E2) as (st3 & -> & I3 & F3 & _ & im3 & E3 & A3 & C3 & _); [lia|].
    cbn [bind]. unfold with_img. rewrite E3.
    destruct (resize_ok st3 a im3 w h I3 E3) as (st4 & -> & I4 & F4 & _).
    { rewrite C3, C2, A3, A2. exact F. }
    exists st4. split; [left; reflexivity|]. split; [exact I4|]. apply (frame_eq _ _ a); [reflexivity|].
    eapply frame_trans; [exact F1|]. eapply frame_trans; [exact F2|]. eapply frame_trans; eassumption.
  - unfold with_img. destruct (cim st a) as [im|] eqn:E; [|contradiction].
    destruct (clear_ok st a im I E) as (st1 & -> & I1 & C1 & F1 & _). cbn [bind].
    eexists. split; [left; reflexivity|]. split; [|apply (frame_eq _ _ a); [reflexivity|eapply frame_trans; [exact F1|apply frame_set]]].
    apply cinv_set_none; auto; [|discriminate]. intros im0 E0. rewrite C1 in E0. injection E0 as <-. reflexivity.
  - destruct Hop as (Ea & Eb). unfold with_img. destruct (cim st b) as [src|] eqn:Eb'; [|contradiction].
    destruct (new_ok st a (ity src) I Ea) as (-> & I1 & F1). cbn [bind]. rewrite set_same.
    assert (N : b <> a) by congruence.
    destruct (copy_ok _ a (default_image (ity src)) b src I1 (set_same _ _ _)) as (st2 & im2 & -> & I2 & F2 & _).
    { rewrite set_other by assumption. exact Eb'. } { auto. } { reflexivity. }
    exists st2. split; [left; reflexivity|]. split; [exact I2|]. apply (frame_eq _ _ a); [reflexivity|].
    eapply frame_trans; eassumption.
  - destruct Hop as (Ea & Eb). unfold with_img. destruct (cim st b) as [src|] eqn:Eb'; [|contradiction].
    destruct (new_ok st a 0 I Ea) as (-> & I1 & F1). cbn [bind]. rewrite set_same.
    assert (N : b <> a) by congruence.
    destruct (swap_ok _ a b (default_image 0) src I1 (set_same _ _ _)) as (I2 & F2 & _).
    { rewrite set_other by assumption. exact Eb'. }
    eexists. split; [left; reflexivity|]. split; [exact I2|].
    eapply frame_trans; [|exact F2]. apply (frame_eq _ _ a); [left; reflexivity|exact F1].
  - destruct Hop as (Ea & Eb). unfold with_img. destruct (cim st a) as [im|] eqn:Ea'; [|contradiction].
    destruct (cim st b) as [src|] eqn:Eb'; [|contradiction].
    destruct (Z.eq_dec a b) as [->|N].
    + assert (src = im) by congruence. subst src.
      destruct (copy_self_ok st b im I Eb') as (st' & -> & I' & F' & _).
      exists st'. split; [left; reflexivity|]. split; [exact I'|]. apply (frame_eq _ _ b); [reflexivity|exact F'].
    + destruct (Z.eq_dec (ity im) (ity src)) as [T|T].
      * destruct (copy_ok st a im b src I Ea' Eb' N T) as (st2 & im2 & -> & I2 & F2 & _).
        exists st2. split; [left; reflexivity|]. split; [exact I2|]. apply (frame_eq _ _ a); [reflexivity|exact F2].
      * exists st. split; [right|split; [exact I|apply frame_refl]]. unfold copy.
        destruct (Z.eqb_spec (ity im) (ity src)); [contradiction|]. auto.
  - destruct Hop as (Ea & Eb). unfold with_img. destruct (cim st a) as [im|] eqn:Ea'; [|contradiction].
    destruct (cim st b) as [src|] eqn:Eb'; [|contradiction].
    destruct (swap_ok st a b im src I Ea' Eb') as (I' & F' & _). eexists. split; [left; reflexivity|]. auto.
  - destruct Hop as (Ea & Eb). unfold with_img. destruct (cim st a) as [im|] eqn:Ea'; [|contradiction].
    destruct (cim st b) as [src|] eqn:Eb'; [|contradiction].
    destruct (swap_ok st a b im src I Ea' Eb') as (I' & F' & _). eexists. split; [left; reflexivity|]. auto.
  - destruct Hop as (im & E & F). unfold with_img. rewrite E.
    destruct (resize_ok st a im w h I E F) as (st' & -> & I' & F' & _).
    exists st'. split; [left; reflexivity|]. split; [exact I'|]. apply (frame_eq _ _ a); [reflexivity|exact F'].
  - unfold with_img. destruct (cim st a) as [im|] eqn:E; [|contradiction].
    destruct (clear_ok st a im I E) as (st' & -> & I' & _ & F' & _).
    exists st'. split; [left; reflexivity|]. split; [exact I'|]. apply (frame_eq _ _ a); [reflexivity|exact F'].
  - destruct Hop as (E' & Hc). unfold with_img. destruct (cim st a) as [im|] eqn:E; [|contradiction].
    destruct (setColorCount_ok st a im cc I E) as (st' & -> & I' & F' & _); [lia|].
    exists st'. split; [left; reflexivity|]. split; [exact I'|]. apply (frame_eq _ _ a); [reflexivity|exact F'].
  - destruct Hop as (E' & Hc). unfold with_img. destruct (cim st a) as [im|] eqn:E; [|contradiction].
    destruct (setAlignment_ok st a im al I E) as (st' & -> & I' & F' & _); [lia|].
    exists st'. split; [left; reflexivity|]. split; [exact I'|]. apply (frame_eq _ _ a); [reflexivity|exact F'].
  - destruct Hop as (im & E & F & Hs & Hi). unfold with_img. rewrite E.
    destruct (mutate_ok im w h cc al (ci_img _ I a im E) F Hs Hi) as (Hok & Hd & Hz).
    eexists. split; [left; reflexivity|]. split; [apply (cinv_set_keep st a im); assumption|].
    apply (frame_eq _ _ a); [reflexivity|apply frame_set].
  - destruct Hop as (E' & (Hw & Hh & Hc & Ha & Hf) & Hn). unfold with_img. destruct (cim st a) as [im|] eqn:E; [|contradiction].
    unfold assign. destruct (negb _) eqn:G.
    2:{ exists st. split; [right; auto|]. split; [exact I|apply frame_refl]. }
    apply negb_true_iff in G. apply orb_false_elim in G as [G G4]. apply orb_false_elim in G as [G G3].
    apply orb_false_elim in G as [G1 G2]. apply Z.eqb_neq in G1, G2, G3, G4.
    destruct (clear_ok st a im I E) as (st1 & -> & I1 & C1 & F1 & _). cbn [bind alloc].
    rewrite row_size_ok by (try apply Hf; lia).
    set (im' := mkImage w h cc al (roundup (w * cc) al) (Some (cnext st1, 0)) (ity im)).
    destruct (alloc_set_ok st1 a (cleared im) im' n I1 C1 eq_refl) as (I2 & F2).
    + specialize (Hf ltac:(lia)). constructor; cbn; try discriminate; try lia; intros; repeat split; lia.
    + reflexivity.
    + cbn. apply Hn. lia.
    + unfold alloc in I2, F2. cbn [fst] in I2, F2.
      eexists. split; [left; reflexivity|]. split; [exact I2|]. apply (frame_eq _ _ a); [reflexivity|].
      eapply frame_trans; eassumption.
  - unfold with_img. destruct (cim st a) as [im|] eqn:E; [|contradiction].
    destruct (idata im) as [p|] eqn:D; [|exists st; split; [left; reflexivity|]; split; [exact I|apply frame_refl]].
    destruct (ci_buf _ I a im p E D) as (Hp0 & Hl & Hle). pose proof (img_rows im p (ci_img _ I a im E) D).
    destruct p as [pb po]. cbn [fst snd] in *. subst po.
    destruct (@memset_block cstate (cmem st) pb v (ih im * irs im)) as (m' & -> & L & V & F); [lia|lia|]. cbn [bind].
    eexists. split; [left; reflexivity|]. split; [apply cinv_mem; assumption|].
    intros b imb Nb Eb. cbn. split; [exact Eb|]. intros q Hq. split; [apply L|]. intros o. apply F. cbn.
    intros Eq. apply Nb. apply (ci_excl _ I b a pb); [|exists im; auto]. exists imb. split; [exact Eb|].
    destruct (ci_buf _ I b imb q Eb Hq) as (? & _). rewrite Hq. f_equal. destruct q; cbn in *; congruence.
  - destruct Hop as (im & p & E & D & Hk). unfold with_img. rewrite E, D.
    destruct (ci_buf _ I a im p E D) as (Hp0 & Hl & Hle).
    destruct p as [pb po]. cbn [fst snd] in *. subst po.
    unfold store, padd. cbn [fst snd]. assert (Hin : inb (cmem st) (pb, 0 + k) = true).
    { unfold inb. cbn. apply andb_true_intro. split; [apply Z.leb_le|apply Z.ltb_lt]; lia. }
    rewrite Hin. cbn [bind]. eexists. split; [left; reflexivity|]. split; [apply cinv_mem; [assumption|intros; apply len_upd]|].
    intros b imb Nb Eb. cbn. split; [exact Eb|]. intros q Hq. split; [apply len_upd|]. intros o. apply get_upd_other. cbn.
    intros Eq. apply Nb. apply (ci_excl _ I b a pb); [|exists im; auto]. exists imb. split; [exact Eb|].
    destruct (ci_buf _ I b imb q Eb Hq) as (? & _). rewrite Hq. f_equal. destruct q; cbn in *. congruence.
Qed.
