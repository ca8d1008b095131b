(** Property C170: copies, moves and destruction of ComplexData. *)
From Coq Require Import ZArith List Bool Lia.
From Verif Require Import Base Image BaseProofs Arith HaarProofs Fft Cplx.
Import ListNotations.
Open Scope Z_scope.

Ltac Zify.zify_post_hook ::= idtac.

Section C170.
Context (T : Type) (z : T).
Notation world := (world T).

(** ** Specification *)
(** Each block in use belongs to one object, which has as many elements as its sizes say. *)
Definition owned (W : world) : Prop :=
  (forall i c, wobj W i = Some c -> match cblk c with
     | Some b => wlive W b = true /\ alen (wheap W b) = cw c * ch c /\ 0 < cw c < W32 /\ 0 < ch c < W32 /\ cw c * ch c < W32
     | None => cw c = 0 /\ ch c = 0 end) /\
  (forall i j c d b, wobj W i = Some c -> wobj W j = Some d -> cblk c = Some b -> cblk d = Some b -> i = j) /\
  (forall b, wlive W b = true -> exists i c, wobj W i = Some c /\ cblk c = Some b).
(** What the allocator may return while the object [i] is written: no block of another object. *)
Definition may_return (W : world) (i b : Z) : Prop := wlive W b = true -> exists c, wobj W i = Some c /\ cblk c = Some b.
Definition exists_ (W : world) (i : Z) : Prop := exists c, wobj W i = Some c.
(** Uses of objects that exist and construction of those that do not. *)
Definition allowed (W : world) (o : op T) : Prop :=
  match o with
  | ONew _ i => wobj W i = None
  | OResize _ i w h b _ => exists_ W i /\ 0 <= w < W32 /\ 0 <= h < W32 /\ w * h < W32 /\ may_return W i b
  | OWrite _ i k _ => exists c, wobj W i = Some c /\ 0 <= k < cw c * ch c
  | OCopyNew _ i j b _ => wobj W i = None /\ exists_ W j /\ wlive W b = false
  | OMoveNew _ i j => wobj W i = None /\ exists_ W j
  | OAssign _ i j b _ => exists_ W i /\ exists_ W j /\ may_return W i b
  | OMoveAssign _ i j => exists_ W i /\ exists_ W j
  | ODestroy _ i => exists_ W i
  end.
Definition elem (W : world) (c : cdata) (k : Z) : T := match cblk c with Some b => aget (wheap W b) k | None => z end.
(** The object [j] of [W'] has the sizes and the elements the object [i] has in [W]. *)
Definition looks (W : world) (i : Z) (W' : world) (j : Z) : Prop :=
  exists c d, wobj W i = Some c /\ wobj W' j = Some d /\ cw c = cw d /\ ch c = ch d /\ (cblk c = None <-> cblk d = None) /\
    forall k, 0 <= k < cw c * ch c -> elem W c k = elem W' d k.
(** All objects but those in [l] are as before. *)
Definition others_same (W W' : world) (l : list Z) : Prop :=
  forall o, ~ In o l -> (wobj W o = None -> wobj W' o = None) /\ (exists_ W o -> looks W o W' o).

Tactic Notation "case_at" constr(a) constr(b) "as" simple_intropattern(p) "in" hyp(H) := revert H; destruct (Z.eqb_spec a b) as p; intros H.
Lemma clean_ok W i c : owned W -> wobj W i = Some c ->
  exists W1, clean T z W i = Ok W1 /\ owned W1 /\ wobj W1 i = Some cnull /\ (forall o, o <> i -> wobj W1 o = wobj W o) /\
    (forall b, wlive W1 b = true <-> wlive W b = true /\ cblk c <> Some b) /\
    (forall b, cblk c <> Some b -> wheap W1 b = wheap W b).
Proof.
  intros (I1 & I2 & I3) Hc. unfold clean, object. rewrite Hc. cbn [bind]. pose proof (I1 _ _ Hc) as Ic. destruct (cblk c) as [b|] eqn:Eb.
  - destruct Ic as (Lv & _). unfold release. rewrite Lv. cbn [bind]. eexists. split; [reflexivity|].
    assert (Ho : forall o, o <> i -> forall d, wobj W o = Some d -> cblk d <> Some b) by (intros o No d Hd E; apply No; eapply I2; eauto).
    cbn [put_obj put_live put_arr wobj wlive wheap]. split; [|split; [rewrite Z.eqb_refl; reflexivity|]].
    + split; [|split].
      * intros o d Hd. cbn [put_obj put_live put_arr wobj wlive wheap] in *. case_at o i as [->|No] in Hd; [injection Hd as <-; cbn; lia|].
        specialize (I1 _ _ Hd). destruct (cblk d) as [b'|] eqn:Ed; [|exact I1]. assert (b' <> b) by (intros ->; apply (Ho o No d Hd Ed)).
        assert (E : (b' =? b) = false) by lia. rewrite E. exact I1.
      * intros o o' d d' b' Hd Hd' E E'. cbn [put_obj put_live put_arr wobj] in *. case_at o i as [?|?] in Hd; [injection Hd as <-; discriminate E|].
        case_at o' i as [?|?] in Hd'; [injection Hd' as <-; discriminate E'|]. eapply I2; eauto.
      * intros b' Hl. cbn [put_obj put_live put_arr wobj wlive] in *. case_at b' b as [?|?] in Hl; [discriminate|]. destruct (I3 b' Hl) as (o & d & Hd & E).
        exists o, d. assert (No : o <> i) by (intros ->; congruence). apply Z.eqb_neq in No. rewrite No. auto.
    + split; [intros o No; apply Z.eqb_neq in No; rewrite No; reflexivity|]. split.
      * intros b'. destruct (Z.eqb_spec b' b) as [->|N]; split; [discriminate|intros [_ N]; congruence|intros L; split; [exact L|congruence]|tauto].
      * intros b' N. destruct (Z.eqb_spec b' b) as [->|_]; [congruence|reflexivity].
  - cbn [bind]. eexists. split; [reflexivity|]. assert (c = cnull) by (destruct c as [cb cw0 ch0]; cbn in *; destruct Ic; subst; reflexivity). subst c.
    cbn [put_obj wobj wlive wheap]. split; [|split; [rewrite Z.eqb_refl; reflexivity|]].
    + split; [|split].
      * intros o d Hd. cbn [put_obj put_live put_arr wobj wlive wheap] in *. case_at o i as [->|No] in Hd; [injection Hd as <-; cbn; lia|]. exact (I1 _ _ Hd).
      * intros o o' d d' b' Hd Hd' E E'. cbn [put_obj put_live put_arr wobj] in *. case_at o i as [?|?] in Hd; [injection Hd as <-; discriminate E|].
        case_at o' i as [?|?] in Hd'; [injection Hd' as <-; discriminate E'|]. eapply I2; eauto.
      * intros b' Hl. cbn [put_obj put_live put_arr wobj wlive] in *. destruct (I3 b' Hl) as (o & d & Hd & E).
        exists o, d. assert (No : o <> i) by (intros ->; rewrite Hc in Hd; injection Hd as <-; discriminate E). apply Z.eqb_neq in No. rewrite No. auto.
    + split; [intros o No; apply Z.eqb_neq in No; rewrite No; reflexivity|]. split; [|reflexivity]. intros b'. split; [intros L; split; [exact L|discriminate]|tauto].
Qed.
(** A block for the empty object [i]. *)
Lemma give_ok W i w h b junk : owned W -> wobj W i = Some cnull -> 0 < w < W32 -> 0 < h < W32 -> w * h < W32 -> wlive W b = false ->
  owned (put_obj T (allocate T W b (w * h) junk) i (Some (mkC (Some b) w h))).
Proof.
  intros (I1 & I2 & I3) Hc Hw Hh Hs Hb. assert (Ho : forall o d, wobj W o = Some d -> cblk d <> Some b).
  { intros o d Hd E. specialize (I1 _ _ Hd). rewrite E in I1. destruct I1 as [L _]. congruence. }
  split; [|split]; cbn [put_obj allocate put_live put_arr wobj wlive wheap].
  - intros o d Hd. case_at o i as [->|No] in Hd; [injection Hd as <-; cbn; rewrite Z.eqb_refl; cbn; repeat split; lia|].
    pose proof (Ho _ _ Hd) as Nb. specialize (I1 _ _ Hd). destruct (cblk d) as [b'|]; [|exact I1]. assert (E : (b' =? b) = false) by (apply Z.eqb_neq; congruence).
    rewrite E. exact I1.
  - intros o o' d d' b' Hd Hd' E E'. revert Hd Hd'; destruct (Z.eqb_spec o i) as [->|No], (Z.eqb_spec o' i) as [->|No']; intros Hd Hd'.
    + reflexivity.
    + injection Hd as <-. injection E as <-. exfalso. apply (Ho _ _ Hd' E').
    + injection Hd' as <-. injection E' as <-. exfalso. apply (Ho _ _ Hd E).
    + eapply I2; eauto.
  - intros b' Hl. case_at b' b as [->|N] in Hl.
    + exists i, (mkC (Some b) w h). rewrite Z.eqb_refl. auto.
    + destruct (I3 b' Hl) as (o & d & Hd & E). exists o, d. assert (No : o <> i) by (intros ->; rewrite Hc in Hd; injection Hd as <-; discriminate E).
      apply Z.eqb_neq in No. rewrite No. auto.
Qed.
Lemma clean_null W i : wobj W i = Some cnull -> clean T z W i = Ok (put_obj T W i (Some cnull)).
Proof. intros H. unfold clean, object. rewrite H. reflexivity. Qed.
Lemma put_same W i c : wobj W i = Some c -> forall o, wobj (put_obj T W i (Some c)) o = wobj W o.
Proof. intros H o. cbn. destruct (Z.eqb_spec o i) as [->|]; congruence. Qed.
(** Changing nothing but an object to itself. *)
Lemma owned_same W i c : wobj W i = Some c -> owned W -> owned (put_obj T W i (Some c)).
Proof.
  intros H (I1 & I2 & I3). split; [|split].
  - intros o d Hd. rewrite (put_same W i c H) in Hd. exact (I1 _ _ Hd).
  - intros o o' d d' b Hd Hd' E E'. rewrite (put_same W i c H) in Hd, Hd'. exact (I2 _ _ _ _ _ Hd Hd' E E').
  - intros b Hl. destruct (I3 b Hl) as (o & d & Hd & E). exists o, d. rewrite (put_same W i c H). auto.
Qed.
(** New contents of a block. *)
Lemma owned_arr W b a : alen a = alen (wheap W b) -> owned W -> owned (put_arr T W b a).
Proof.
  intros La (I1 & I2 & I3). split; [|split]; [|exact I2|exact I3].
  intros o d Hd. specialize (I1 _ _ Hd). cbn [put_arr wheap wlive]. destruct (cblk d) as [b'|]; [|exact I1].
  destruct (Z.eqb_spec b' b) as [->|]; [rewrite La; exact I1|exact I1].
Qed.
Lemma looks_refl W W' o : exists_ W o -> wobj W' o = wobj W o ->
  (forall c b, wobj W o = Some c -> cblk c = Some b -> forall k, aget (wheap W' b) k = aget (wheap W b) k) -> looks W o W' o.
Proof.
  intros [c Hc] E H. exists c, c. split; [exact Hc|]. split; [congruence|]. split; [reflexivity|]. split; [reflexivity|]. split; [tauto|].
  intros k Hk. unfold elem. destruct (cblk c) as [b|] eqn:Eb; [|reflexivity]. symmetry. apply (H c b Hc Eb).
Qed.

(** resize of an object: it has the new sizes unless one of them is 0. *)
Lemma resize_ok W i c w h b junk : owned W -> wobj W i = Some c -> 0 <= w < W32 -> 0 <= h < W32 -> w * h < W32 -> may_return W i b ->
  exists W', resize T z W i w h b junk = Ok W' /\ owned W' /\ others_same W W' [i] /\
    exists c', wobj W' i = Some c' /\ (w <> 0 -> h <> 0 -> cw c' = w /\ ch c' = h /\ cblk c' <> None) /\ ((w = 0 \/ h = 0) -> W' = W).
Proof.
  intros O Hc Hw Hh Hs Hb. unfold resize, object. rewrite Hc. cbn [bind].
  destruct ((negb (cw c =? w) || negb (ch c =? h)) && negb (w =? 0) && negb (h =? 0)) eqn:E.
  - assert (W0 : w <> 0 /\ h <> 0) by lia. destruct (clean_ok W i c O Hc) as (W1 & E1 & O1 & Hi1 & Ho1 & L1 & A1). rewrite E1. cbn [bind].
    assert (F : wlive W1 b = false).
    { destruct (wlive W1 b) eqn:L; [|reflexivity]. apply L1 in L. destruct L as [L N]. destruct (Hb L) as (c' & Hc' & Ec'). congruence. }
    rewrite u32_small by nia. eexists. split; [reflexivity|]. split; [apply give_ok; try assumption; lia|].
    split.
    + intros o Ho. assert (No : o <> i) by (intros ->; apply Ho; left; reflexivity). pose proof No as No'. apply Z.eqb_neq in No'.
      cbn [put_obj allocate put_live put_arr wobj]. split; [intros N; rewrite No', Ho1 by exact No; exact N|].
      intros X. apply looks_refl; [exact X|cbn [put_obj allocate put_live put_arr wobj]; rewrite No'; apply Ho1, No|].
      intros d b' Hd Eb' k. cbn [put_obj allocate put_live put_arr wheap].
      assert (Nb : cblk c <> Some b') by (intros Eb; apply No; destruct O as (_ & I2 & _); eapply I2; eauto).
      destruct (Z.eqb_spec b' b) as [->|_]; [|rewrite A1 by exact Nb; reflexivity].
      exfalso. destruct O as (I1 & _). specialize (I1 _ _ Hd). rewrite Eb' in I1. destruct I1 as [L _]. destruct (Hb L) as (c' & Hc' & Ec'). congruence.
    + eexists. cbn [put_obj wobj]. rewrite Z.eqb_refl. split; [reflexivity|]. cbn. split; [intros; repeat split; discriminate|]. intros [->| ->]; lia.
  - eexists. split; [reflexivity|]. split; [exact O|]. split.
    + intros o _. split; [tauto|]. intros X. apply looks_refl; [exact X|reflexivity|reflexivity].
    + exists c. split; [exact Hc|]. split; [|reflexivity]. intros N1 N2. assert (cw c = w /\ ch c = h) as [E1 E2] by lia. split; [exact E1|]. split; [exact E2|].
      destruct O as (I1 & _). specialize (I1 _ _ Hc). intros Eb. rewrite Eb in I1. lia.
Qed.

Lemma bytes_of w h : 0 <= w -> 0 <= h -> w < W32 -> w * h < W32 -> u64 (u64 (8 * w) * h) / 8 = w * h.
Proof.
  intros Hw Hh Hl Hs. unfold u64, W64, W32 in *. rewrite (Z.mod_small (8 * w)) by lia. rewrite Z.mod_small by nia.
  replace (8 * w * h) with (w * h * 8) by lia. apply Z.div_mul. lia.
Qed.
(** _copy for different objects. *)
Lemma copy_ok W i j c b junk : owned W -> wobj W i = Some c -> exists_ W j -> may_return W i b -> i <> j ->
  exists W', copy T z W i j b junk = Ok W' /\ owned W' /\ looks W j W' i /\ others_same W W' [i].
Proof.
  intros O Hc [d Hd] Hb Nij. unfold copy. destruct (clean_ok W i c O Hc) as (W1 & E1 & O1 & Hi1 & Ho1 & L1 & A1). rewrite E1. cbn [bind].
  unfold object. rewrite (Ho1 j), Hd by congruence. cbn [bind].
  assert (F : may_return W1 i b).
  { intros L. apply L1 in L. destruct L as [L N]. destruct (Hb L) as (c' & Hc' & Ec'). congruence. }
  pose proof O as (I1 & I2 & I3). pose proof (I1 _ _ Hd) as Id.
  assert (R : 0 <= cw d < W32 /\ 0 <= ch d < W32 /\ cw d * ch d < W32) by (unfold W32 in *; destruct (cblk d); lia).
  destruct R as (R1 & R2 & R3).
  destruct (resize_ok W1 i cnull (cw d) (ch d) b junk O1 Hi1 R1 R2 R3 F) as (W2 & E2 & O2 & S2 & c2 & Hc2 & N2 & Z2). rewrite E2. cbn [bind]. rewrite Hc2. cbn [bind].
  assert (S1 : others_same W W1 [i]).
  { intros o Ho. assert (No : o <> i) by (intros ->; apply Ho; left; reflexivity). split; [rewrite Ho1 by exact No; tauto|]. intros X.
    apply looks_refl; [exact X|apply Ho1, No|]. intros e b' He Eb' k. rewrite A1; [reflexivity|]. intros Eb. apply No. eapply I2; eauto. }
  assert (S12 : others_same W W2 [i]).
  { intros o Ho. destruct (S1 o Ho) as [P1 P2], (S2 o Ho) as [Q1 Q2]. split; [tauto|]. intros X. destruct (P2 X) as (e & e1 & He & He1 & Ew & Eh & Ebl & Ek).
    destruct (Q2 (ex_intro _ e1 He1)) as (e1' & e2 & He1' & He2 & Ew' & Eh' & Ebl' & Ek'). rewrite He1 in He1'. injection He1' as <-.
    exists e, e2. split; [exact He|]. split; [exact He2|]. split; [congruence|]. split; [congruence|]. split; [tauto|]. intros k Hk. rewrite Ek by exact Hk.
    apply Ek'. rewrite <- Ew, <- Eh. exact Hk. }
  assert (Nin : ~ In j [i]) by (intros [E|[]]; congruence).
  destruct (S12 j Nin) as [_ Lj]. destruct (Lj (ex_intro _ d Hd)) as (d0 & d2 & Hd0 & Hd2 & Ew & Eh & Ebl & Ek). rewrite Hd in Hd0. injection Hd0 as <-.
  destruct (cblk c2) as [b2|] eqn:Eb2.
  - rewrite Hd2. cbn [bind].
    assert (Nz : cw d <> 0 /\ ch d <> 0).
    { destruct (Z.eq_dec (cw d) 0) as [Ez|Nz]; [|destruct (Z.eq_dec (ch d) 0) as [Ez|Nz']; [|auto]]; exfalso; rewrite Z2 in Hc2 by auto; rewrite Hi1 in Hc2; injection Hc2 as <-; discriminate Eb2. }
    destruct Nz as [Nw Nh]. destruct (N2 Nw Nh) as (Ew2 & Eh2 & _).
    destruct (cblk d) as [bd|] eqn:Ebd; [|lia]. destruct (cblk d2) as [bd2|] eqn:Ebd2; [|destruct Ebl as [_ Ebl]; discriminate (Ebl eq_refl)].
    unfold copy_data. rewrite Eb2, Ebd2, Ew2, Eh2. rewrite bytes_of by lia. set (n := cw d * ch d) in *.
    pose proof O2 as (J1 & J2 & _). pose proof (J1 _ _ Hc2) as Jc. rewrite Eb2, Ew2, Eh2 in Jc. pose proof (J1 _ _ Hd2) as Jd. rewrite Ebd2, <- Ew, <- Eh in Jd.
    fold n in Jc, Jd. destruct Jc as (_ & Lc & _). destruct Jd as (_ & Ld & _).
    assert (Nb : bd2 <> b2) by (intros ->; apply Nij; eapply J2; eauto).
    assert (C : (bd2 =? b2) || (alen (wheap W2 bd2) <? n) || (alen (wheap W2 b2) <? n) = false) by lia. rewrite C.
    eexists. split; [reflexivity|]. split; [apply owned_arr; [reflexivity|exact O2]|]. split.
    + exists d, c2. cbn [put_arr wobj wheap]. split; [exact Hd|]. split; [exact Hc2|]. split; [congruence|]. split; [congruence|]. split; [rewrite Ebd, Eb2; split; discriminate|].
      intros k Hk. fold n in Hk. rewrite Ek by exact Hk. unfold elem. rewrite Eb2, Ebd2. cbn [put_arr wheap]. rewrite Z.eqb_refl. cbn [aget].
      assert (C2 : (0 <=? k) && (k <? n) = true) by lia. rewrite C2. reflexivity.
    + intros o Ho. destruct (S12 o Ho) as [P1 P2]. split; [exact P1|]. intros X. destruct (P2 X) as (e & e2 & He & He2 & Ewe & Ehe & Ebe & Eke).
      exists e, e2. split; [exact He|]. split; [exact He2|]. split; [exact Ewe|]. split; [exact Ehe|]. split; [exact Ebe|]. intros k Hk. rewrite Eke by exact Hk.
      unfold elem. destruct (cblk e2) as [be|] eqn:Ebe2; [|reflexivity]. cbn [put_arr wheap]. destruct (Z.eqb_spec be b2) as [->|_]; [|reflexivity].
      exfalso. apply Ho. left. eapply J2; eauto.
  - exists W2. split; [reflexivity|]. split; [exact O2|]. split; [|exact S12].
    assert (Dz : cblk d = None).
    { destruct (cblk d) as [bd|] eqn:Ebd; [|reflexivity]. exfalso. destruct (N2 ltac:(lia) ltac:(lia)) as (_ & _ & X). congruence. }
    rewrite Dz in Id. exists d, c2. assert (Ez : W2 = W1) by (apply Z2; lia). subst W2. rewrite Hi1 in Hc2. injection Hc2 as <-.
    split; [exact Hd|]. split; [exact Hi1|]. cbn. split; [lia|]. split; [lia|]. split; [tauto|]. intros k Hk. lia.
Qed.

(** ** C170 *)
Definition C170_claim : Prop := forall W i j b junk, owned W -> exists_ W i -> exists_ W j -> may_return W i b ->
  exists W', step T z W (OAssign T i j b junk) = Ok W' /\ looks W j W' i.
(** An object assigned to itself is emptied. *)
Theorem C170_self_assignment W i b junk : owned W -> exists_ W i ->
  exists W', step T z W (OAssign T i i b junk) = Ok W' /\ wobj W' i = Some cnull.
Proof.
  intros O [c Hc]. cbn [step]. unfold copy. destruct (clean_ok W i c O Hc) as (W1 & E1 & _ & Hi1 & _). rewrite E1. cbn [bind].
  unfold object. rewrite Hi1. cbn [bind cw ch cnull]. unfold resize, object. rewrite Hi1. cbn. unfold object. rewrite Hi1. cbn. exists W1. auto.
Qed.
Theorem C170_assign_partial W i j b junk : owned W -> exists_ W i -> exists_ W j -> may_return W i b -> i <> j ->
  exists W', step T z W (OAssign T i j b junk) = Ok W' /\ owned W' /\ looks W j W' i /\ others_same W W' [i].
Proof. intros O [c Hc] Hj Hb N. cbn [step]. eapply copy_ok; eauto. Qed.
Lemma new_ok W i : owned W -> wobj W i = None -> owned (put_obj T W i (Some cnull)).
Proof.
  intros (I1 & I2 & I3) H. split; [|split]; cbn [put_obj wobj wlive wheap].
  - intros o d Hd. case_at o i as [?|?] in Hd; [injection Hd as <-; cbn; lia|exact (I1 _ _ Hd)].
  - intros o o' d d' b Hd Hd' E E'. case_at o i as [?|?] in Hd; [injection Hd as <-; discriminate E|]. case_at o' i as [?|?] in Hd'; [injection Hd' as <-; discriminate E'|]. eapply I2; eauto.
  - intros b Hl. destruct (I3 b Hl) as (o & d & Hd & E). exists o, d. destruct (Z.eqb_spec o i) as [->|]; [congruence|auto].
Qed.
Theorem C170_copy W i j b junk : owned W -> wobj W i = None -> exists_ W j -> wlive W b = false ->
  exists W', step T z W (OCopyNew T i j b junk) = Ok W' /\ owned W' /\ looks W j W' i /\ others_same W W' [i].
Proof.
  intros O Hi [d Hd] Hb. cbn [step]. assert (Nij : i <> j) by congruence. assert (Ej : (j =? i) = false) by lia.
  destruct (copy_ok (put_obj T W i (Some cnull)) i j cnull b junk) as (W' & E & O' & L & S).
  - apply new_ok; assumption.
  - cbn. rewrite Z.eqb_refl. reflexivity.
  - exists d. cbn. rewrite Ej. exact Hd.
  - intros X. cbn in X. congruence.
  - exact Nij.
  - exists W'. split; [exact E|]. split; [exact O'|]. split.
    + destruct L as (e & e' & He & L). cbn in He. rewrite Ej in He. exists e, e'. split; [exact He|exact L].
    + intros o Ho. assert (No : (o =? i) = false) by (apply Z.eqb_neq; intros ->; apply Ho; left; reflexivity). destruct (S o Ho) as [P1 P2].
      cbn [put_obj wobj] in P1. unfold exists_ in P2. cbn [put_obj wobj] in P2. rewrite No in P1, P2. split; [exact P1|]. intros X. destruct (P2 X) as (e & e' & He & L').
      cbn [put_obj wobj] in He. rewrite No in He. exists e, e'. split; [exact He|exact L'].
Qed.
Lemma swap_ok W i j : owned W -> exists_ W i -> exists_ W j ->
  exists W', swap_objects T W i j = Ok W' /\ owned W' /\ looks W j W' i /\ looks W i W' j /\ others_same W W' [i; j].
Proof.
  intros (I1 & I2 & I3) [c Hc] [d Hd]. unfold swap_objects, object. rewrite Hc, Hd. cbn [bind]. eexists. split; [reflexivity|].
  assert (Self : forall o e o' e' (V : world), wheap V = wheap W -> wobj W o = Some e -> wobj V o' = Some e' -> e = e' -> looks W o V o').
  { intros o e o' e' V Eh He He' <-. exists e, e. split; [exact He|]. split; [exact He'|]. repeat split; try tauto. intros k Hk. unfold elem. rewrite Eh. reflexivity. }
  split; [|split; [|split]].
  - assert (Q : forall o e, wobj (put_obj T (put_obj T W i (Some d)) j (Some c)) o = Some e -> exists o', wobj W o' = Some e /\ o' = (if o =? j then i else if o =? i then j else o)).
    { intros o e He. cbn in He. destruct (o =? j); [exists i; split; [congruence|reflexivity]|]. destruct (o =? i); [exists j; split; [congruence|reflexivity]|]. exists o. auto. }
    split; [|split].
    + intros o e He. destruct (Q o e He) as (o' & He' & _). exact (I1 _ _ He').
    + intros o o' e e' b He He' E E'. destruct (Q o e He) as (p & Hp & Ep), (Q o' e' He') as (p' & Hp' & Ep').
      assert (Epp : p = p') by (eapply I2; eauto). rewrite Ep, Ep' in Epp. clear - Epp. revert Epp.
      destruct (Z.eqb_spec o j), (Z.eqb_spec o' j), (Z.eqb_spec o i), (Z.eqb_spec o' i); intros; lia.
    + intros b Hl. destruct (I3 b Hl) as (o & e & He & E). cbn [put_obj wobj].
      exists (if o =? j then i else if o =? i then j else o), e. split; [|exact E].
      destruct (Z.eqb_spec o j) as [->|Nj].
      * destruct (Z.eqb_spec i j) as [->|]; [congruence|]. rewrite Z.eqb_refl. congruence.
      * destruct (Z.eqb_spec o i) as [->|Ni]; [rewrite Z.eqb_refl; congruence|]. apply Z.eqb_neq in Nj, Ni. rewrite Nj, Ni. exact He.
  - destruct (Z.eqb_spec i j) as [E|E].
    + subst j. apply (Self i c i c); try reflexivity; [exact Hc|]. cbn. rewrite Z.eqb_refl. reflexivity.
    + apply (Self j d i d); try reflexivity; [exact Hd|]. cbn. apply Z.eqb_neq in E. rewrite E, Z.eqb_refl. reflexivity.
  - apply (Self i c j c); try reflexivity; [exact Hc|]. cbn. rewrite Z.eqb_refl. reflexivity.
  - intros o Ho. assert (E1 : (o =? i) = false) by (apply Z.eqb_neq; intros ->; apply Ho; left; reflexivity).
    assert (E2 : (o =? j) = false) by (apply Z.eqb_neq; intros ->; apply Ho; right; left; reflexivity).
    cbn [put_obj wobj]. rewrite E1, E2. split; [tauto|]. intros [e He]. apply (Self o e o e); try reflexivity; [exact He|]. cbn. rewrite E1, E2. exact He.
Qed.
(** Assignment by moving exchanges the two objects, also for an object and itself. *)
Theorem C170_move_assign W i j : owned W -> exists_ W i -> exists_ W j ->
  exists W', step T z W (OMoveAssign T i j) = Ok W' /\ owned W' /\ looks W j W' i /\ looks W i W' j /\ others_same W W' [i; j].
Proof. intros O Hi Hj. cbn [step]. apply swap_ok; assumption. Qed.
(** Construction by moving leaves the source empty. *)
Theorem C170_move W i j : owned W -> wobj W i = None -> exists_ W j ->
  exists W', step T z W (OMoveNew T i j) = Ok W' /\ owned W' /\ looks W j W' i /\ wobj W' j = Some cnull /\ others_same W W' [i; j].
Proof.
  intros O Hi [d Hd]. cbn [step]. assert (Nij : i <> j) by congruence. assert (Ej : (j =? i) = false) by lia. assert (Ei : (i =? j) = false) by lia.
  destruct (swap_ok (put_obj T W i (Some cnull)) i j) as (W' & E & O' & L & _ & S).
  - apply new_ok; assumption.
  - exists cnull. cbn. rewrite Z.eqb_refl. reflexivity.
  - exists d. cbn. rewrite Ej. exact Hd.
  - exists W'. split; [exact E|]. split; [exact O'|]. split; [|split].
    + destruct L as (e & e' & He & L). cbn in He. rewrite Ej in He. exists e, e'. split; [exact He|exact L].
    + unfold swap_objects, object in E. cbn [put_obj wobj] in E. rewrite Z.eqb_refl, Ej, Hd in E. cbn [bind] in E. injection E as <-. cbn. rewrite Z.eqb_refl. reflexivity.
    + intros o Ho. assert (No : (o =? i) = false) by (apply Z.eqb_neq; intros ->; apply Ho; left; reflexivity). destruct (S o Ho) as [P1 P2].
      cbn [put_obj wobj] in P1. unfold exists_ in P2. cbn [put_obj wobj] in P2. rewrite No in P1, P2. split; [exact P1|]. intros X. destruct (P2 X) as (e & e' & He & L').
      cbn [put_obj wobj] in He. rewrite No in He. exists e, e'. split; [exact He|exact L'].
Qed.
(** Writing through data() changes one element of one object. *)
Theorem C170_write W i k x c : owned W -> wobj W i = Some c -> 0 <= k < cw c * ch c ->
  exists W', step T z W (OWrite T i k x) = Ok W' /\ owned W' /\ others_same W W' [i] /\ wobj W' i = Some c /\
    forall k', elem W' c k' = if k' =? k then x else elem W c k'.
Proof.
  intros O Hc Hk. cbn [step]. unfold object. rewrite Hc. cbn [bind]. pose proof O as (I1 & I2 & _). pose proof (I1 _ _ Hc) as Ic.
  destruct (cblk c) as [b|] eqn:Eb; [|nia]. destruct Ic as (_ & La & _). rewrite wr_ok by (rewrite La; exact Hk). cbn [bind].
  eexists. split; [reflexivity|]. split; [apply owned_arr; [reflexivity|exact O]|]. split; [|split; [exact Hc|]].
  - intros o Ho. split; [tauto|]. intros X. apply looks_refl; [exact X|reflexivity|]. intros d b' Hd Eb' k'. cbn [put_arr wheap].
    destruct (Z.eqb_spec b' b) as [->|]; [|reflexivity]. exfalso. apply Ho. left. eapply I2; eauto.
  - intros k'. unfold elem. rewrite Eb. cbn [put_arr wheap]. rewrite Z.eqb_refl. apply aget_aset.
Qed.
Lemma destroy_ok W i : owned W -> exists_ W i -> exists W', step T z W (ODestroy T i) = Ok W' /\ owned W' /\ wobj W' i = None /\ others_same W W' [i].
Proof.
  intros O [c Hc]. cbn [step]. destruct (clean_ok W i c O Hc) as (W1 & E1 & (J1 & J2 & J3) & Hi1 & Ho1 & L1 & A1). rewrite E1. cbn [bind].
  eexists. split; [reflexivity|]. split; [|split].
  - split; [|split]; cbn [put_obj wobj wlive wheap].
    + intros o d Hd. destruct (o =? i); [discriminate|]. exact (J1 _ _ Hd).
    + intros o o' d d' b Hd Hd' E E'. destruct (o =? i); [discriminate|]. destruct (o' =? i); [discriminate|]. eapply J2; eauto.
    + intros b Hl. destruct (J3 b Hl) as (o & d & Hd & E). exists o, d. destruct (Z.eqb_spec o i) as [->|]; [rewrite Hi1 in Hd; injection Hd as <-; discriminate E|auto].
  - cbn. rewrite Z.eqb_refl. reflexivity.
  - intros o Ho. assert (No : o <> i) by (intros ->; apply Ho; left; reflexivity). assert (Nb : (o =? i) = false) by lia. cbn [put_obj wobj]. rewrite Nb, Ho1 by exact No.
    split; [tauto|]. intros X. apply looks_refl; [exact X|cbn; rewrite Nb; apply Ho1, No|]. intros d b Hd Eb k. cbn [put_obj wheap]. rewrite A1; [reflexivity|].
    intros Ec. apply No. destruct O as (_ & I2 & _). eapply I2; eauto.
Qed.
(** Every allowed operation ends, and blocks stay owned by one object each. *)
Theorem C170_step W o : owned W -> allowed W o -> exists W', step T z W o = Ok W' /\ owned W'.
Proof.
  intros O H. destruct o as [i|i w h b junk|i k x|i j b junk|i j|i j b junk|i j|i]; cbn [allowed] in H.
  - exists (put_obj T W i (Some cnull)). split; [reflexivity|]. apply new_ok; assumption.
  - destruct H as ([c Hc] & Hw & Hh & Hs & Hb). destruct (resize_ok W i c w h b junk O Hc Hw Hh Hs Hb) as (W' & E & O' & _). eauto.
  - destruct H as (c & Hc & Hk). destruct (C170_write W i k x c O Hc Hk) as (W' & E & O' & _). eauto.
  - destruct H as (Hi & Hj & Hb). destruct (C170_copy W i j b junk O Hi Hj Hb) as (W' & E & O' & _). eauto.
  - destruct H as (Hi & Hj). destruct (C170_move W i j O Hi Hj) as (W' & E & O' & _). eauto.
  - destruct H as ([c Hc] & Hj & Hb). destruct (Z.eq_dec i j) as [<-|N].
    + cbn [step]. unfold copy. destruct (clean_ok W i c O Hc) as (W1 & E1 & O1 & Hi1 & _). rewrite E1. cbn [bind].
      unfold object. rewrite Hi1. cbn [bind cw ch cnull]. unfold resize, object. rewrite Hi1. cbn. unfold object. rewrite Hi1. cbn. eauto.
    + destruct (copy_ok W i j c b junk O Hc Hj Hb N) as (W' & E & O' & _). cbn [step]. eauto.
  - destruct H as (Hi & Hj). destruct (C170_move_assign W i j O Hi Hj) as (W' & E & O' & _). eauto.
  - destruct (destroy_ok W i O H) as (W' & E & O' & _). eauto.
Qed.
(** Histories in which each operation is allowed when it starts. *)
Fixpoint history (W : world) (l : list (op T)) : Prop :=
  match l with [] => True | o :: l => allowed W o /\ forall W', step T z W o = Ok W' -> history W' l end.
Theorem C170_history l : forall W, owned W -> history W l -> exists W', run T z W l = Ok W' /\ owned W'.
Proof.
  induction l as [|o l IH]; intros W O H; cbn [run]; [eauto|]. destruct H as [Ha Hr]. destruct (C170_step W o O Ha) as (W1 & E & O1). rewrite E. cbn [bind]. apply IH; auto.
Qed.
Lemma owned_empty : owned (empty_world T z).
Proof. repeat split; cbn; intros; discriminate. Qed.
(** Once no object is left, no block is. *)
Theorem C170_no_leak l W' : history (empty_world T z) l -> run T z (empty_world T z) l = Ok W' -> (forall i, wobj W' i = None) -> forall b, wlive W' b = false.
Proof.
  intros H E N b. destruct (C170_history l _ owned_empty H) as (W & E' & (_ & _ & I3)). rewrite E in E'. injection E' as <-.
  destruct (wlive W' b) eqn:L; [|reflexivity]. destruct (I3 b L) as (i & c & Hc & _). rewrite N in Hc. discriminate.
Qed.
End C170.

Definition one : world Z := mkWorld (fun b => if b =? 5 then mkArr 1 (fun _ => 7) else mkArr 0 (fun _ => 0)) (fun b => b =? 5)
  (fun i => if i =? 1 then Some (mkC (Some 5) 1 1) else None).
Lemma one_owned : owned Z one.
Proof.
  split; [|split]; cbn.
  - intros i c H. destruct (i =? 1); [injection H as <-|discriminate]. cbn. unfold W32. lia.
  - intros i j c d b H H' E E'. destruct (Z.eqb_spec i 1), (Z.eqb_spec j 1); try discriminate. congruence.
  - intros b H. apply Z.eqb_eq in H. subst b. exists 1, (mkC (Some 5) 1 1). split; reflexivity.
Qed.
Theorem C170_self_refuted : ~ C170_claim Z 0.
Proof.
  intros H. assert (X : exists_ Z one 1) by (eexists; reflexivity).
  destruct (H one 1 1 6 (fun _ => 0) one_owned X X) as (W' & E & (c & d & Hc & Hd & Ew & _)); [intros L; discriminate L|].
  destruct (C170_self_assignment Z 0 one 1 6 (fun _ => 0) one_owned X) as (W2 & E2 & H2). rewrite E in E2. injection E2 as <-.
  rewrite H2 in Hd. injection Hd as <-. cbn in Hc. injection Hc as <-. discriminate Ew.
Qed.
(** Objects of 2^32 elements: resize allocates the product modulo 2^32, the copy has all of them. *)
Definition C170_size_claim : Prop := forall w h, 0 < w < W32 -> 0 < h < W32 ->
  run Z 0 (empty_world Z 0) [ONew Z 1; OResize Z 1 w h 5 (fun _ => 0); OCopyNew Z 2 1 6 (fun _ => 0)] <> UB.
Theorem C170_size_refuted : ~ C170_size_claim.
Proof. intros H. apply (H 65536 65536); [unfold W32; lia|unfold W32; lia|vm_compute; reflexivity]. Qed.

(** Two objects, a copy, a write to the copy, an assignment that gets the released block again,
    a move; then everything is destroyed. *)
Definition tale : list (op Z) :=
  [ONew Z 1; OResize Z 1 2 3 5 (fun k => k); OCopyNew Z 2 1 6 (fun _ => 9); OWrite Z 2 4 100;
   OAssign Z 1 2 5 (fun _ => 8); OMoveNew Z 3 1; ODestroy Z 1; ODestroy Z 2; ODestroy Z 3].
Example C170_case : history Z 0 (empty_world Z 0) tale /\
  match run Z 0 (empty_world Z 0) (firstn 6 tale) with
  | Ok W => match wobj W 3, wobj W 1 with
            | Some c, Some d => (cw c, ch c, map (elem Z 0 W c) [0; 1; 2; 3; 4; 5]) = (2, 3, [0; 1; 2; 3; 100; 5]) /\ d = cnull
            | _, _ => False end
  | _ => False
  end.
Proof.
  split; [|cbn; split; reflexivity].
  assert (A0 : forall W' W'' : world Z, Ok W' = @Ok (world Z) _ W'' -> W'' = W') by congruence.
  unfold tale. split; [reflexivity|]. intros W E. cbn [step] in E. apply A0 in E. subst W.
  split.
  { split; [eexists; reflexivity|]. split; [unfold W32; lia|]. split; [unfold W32; lia|]. split; [unfold W32; lia|]. intros L; discriminate L. }
  intros W E. match type of E with ?l = _ => let v := eval cbn in l in change l with v in E end. apply A0 in E. subst W.
  split; [split; [reflexivity|]; split; [eexists; reflexivity|reflexivity]|].
  intros W E. match type of E with ?l = _ => let v := eval cbn in l in change l with v in E end. apply A0 in E. subst W.
  split; [eexists; split; [reflexivity|cbn; lia]|].
  intros W E. match type of E with ?l = _ => let v := eval cbn in l in change l with v in E end. apply A0 in E. subst W.
  split; [split; [eexists; reflexivity|]; split; [eexists; reflexivity|]; intros _; eexists; split; reflexivity|].
  intros W E. match type of E with ?l = _ => let v := eval cbn in l in change l with v in E end. apply A0 in E. subst W.
  split; [split; [reflexivity|eexists; reflexivity]|].
  intros W E. match type of E with ?l = _ => let v := eval cbn in l in change l with v in E end. apply A0 in E. subst W.
  split; [eexists; reflexivity|].
  intros W E. match type of E with ?l = _ => let v := eval cbn in l in change l with v in E end. apply A0 in E. subst W.
  split; [eexists; reflexivity|].
  intros W E. match type of E with ?l = _ => let v := eval cbn in l in change l with v in E end. apply A0 in E. subst W.
  split; [eexists; reflexivity|]. intros; exact I.
Qed.
Print Assumptions C170_self_assignment.
Print Assumptions C170_self_refuted.
Print Assumptions C170_size_refuted.
Print Assumptions C170_assign_partial.
Print Assumptions C170_copy.
Print Assumptions C170_move_assign.
Print Assumptions C170_move.
Print Assumptions C170_write.
Print Assumptions C170_step.
Print Assumptions C170_history.
Print Assumptions C170_no_leak.
