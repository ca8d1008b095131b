(** Properties C43 to C46: the image container. *)
From Coq Require Import ZArith List Bool Lia.
From Verif Require Import Base Image Spec BaseProofs SafeProofs Container ContainerProofs.
Import ListNotations.
Open Scope Z_scope.
Ltac Zify.zify_post_hook ::= Z.div_mod_to_equations.

(** Each operation of the program is admissible in the state it is run in. *)
Fixpoint ops_ok (st : cstate) (ops : list cop) : Prop :=
  match ops with
  | [] => True
  | o :: t => op_ok st o /\ forall st', cstep st o = Ok st' \/ cstep st o = Throw st' -> ops_ok st' t
  end.

(** ** C43 *)
(** What the container promises: a non-empty image has positive width and height, its row
    size is the least multiple of the alignment that holds a row, and it owns, alone, an
    allocated buffer that holds all its rows; an image without buffer has no pixels.  No
    allocated buffer is without an owner. *)
Record consistent (st : cstate) : Prop := mkCons {
  k_full : forall a im b o, cim st a = Some im -> idata im = Some (b, o) ->
    0 < iw im /\ 0 < ih im /\ (ial im | irs im) /\ iw im * icc im <= irs im < iw im * icc im + ial im /\
    o = 0 /\ clive st b = true /\ ih im * irs im <= len (cmem st) b;
  k_empty : forall a im, cim st a = Some im -> idata im = None -> iw im = 0 \/ ih im = 0;
  k_alone : forall a1 a2 im1 im2 p1 p2, a1 <> a2 -> cim st a1 = Some im1 -> cim st a2 = Some im2 ->
    idata im1 = Some p1 -> idata im2 = Some p2 -> fst p1 <> fst p2;
  k_leak : forall b, clive st b = true -> exists a im, cim st a = Some im /\ idata im = Some (b, 0)
}.
Lemma cinv_consistent st : cinv st -> consistent st.
Proof.
  intros I. constructor.
  - intros a im b o E D. pose proof (ci_img _ I a im E) as [Hc Ha Hg _]. destruct (Hg _ D) as (Hw & Hh & Hr & Hs).
    destruct (ci_buf _ I a im _ E D) as (H1 & H2 & H3). cbn in *. split; [exact Hw|]. split; [exact Hh|].
    split; [|split; [|auto]].
    + rewrite Hr. unfold roundup. apply Z.divide_factor_r.
    + rewrite Hr. pose proof (roundup_ge (iw im * icc im) (ial im) Ha). unfold roundup in *. nia.
  - intros a im E D. pose proof (ci_img _ I a im E) as [_ _ _ He]. apply (He D).
  - intros a1 a2 im1 im2 [b1 o1] [b2 o2] N E1 E2 D1 D2. cbn. intros ->. apply N.
    destruct (ci_buf _ I _ _ _ E1 D1) as (Z1 & _). destruct (ci_buf _ I _ _ _ E2 D2) as (Z2 & _). cbn in *. subst.
    apply (ci_excl _ I a1 a2 b2); [exists im1|exists im2]; auto.
  - intros b L. destruct (ci_leak _ I b L) as (a & im & E & D). eauto.
Qed.

Lemma crun_ok : forall ops st, cinv st -> ops_ok st ops -> exists st', crun st ops = Ok st' /\ cinv st'.
Proof.
  induction ops as [|o t IH]; intros st I H; [exists st; auto|].
  destruct H as (Ho & Ht). destruct (cstep_ok st o I Ho) as (st1 & [E|[E ->]] & I1 & _); cbn [crun]; rewrite E;
    (apply IH; [exact I1|apply Ht; auto]).
Qed.

(** Any program: no operation is undefined (no freeing twice, no access outside a buffer)
    and the state it leaves is consistent. *)
Theorem C43_container_consistent : forall m ops, ops_ok (cinit m) ops ->
  exists st, crun (cinit m) ops = Ok st /\ consistent st.
Proof.
  intros m ops H. destruct (crun_ok ops (cinit m) (cinv_init m) H) as (st & E & I).
  exists st. split; [exact E|apply cinv_consistent; exact I].
Qed.

(** When every object has been destroyed nothing remains allocated. *)
Theorem C43_no_leak : forall m ops st, ops_ok (cinit m) ops -> crun (cinit m) ops = Ok st ->
  (forall a, cim st a = None) -> forall b, clive st b = false.
Proof.
  intros m ops st H E Hd b. destruct (C43_container_consistent m ops H) as (st' & E' & C).
  assert (st' = st) by congruence. subst st'.
  destruct (clive st b) eqn:L; [|reflexivity]. destruct (k_leak _ C b L) as (a & im & Ea & _).
  rewrite Hd in Ea. discriminate.
Qed.

(** The images a program makes meet the assumptions of the image functions. *)
Theorem C43_images_well_formed : forall m ops st a im, ops_ok (cinit m) ops -> crun (cinit m) ops = Ok st ->
  cim st a = Some im -> idata im <> None -> icc im = 1 \/ icc im = 3 \/ icc im = 4 -> ih im * irs im < W32 ->
  wf (cmem st) im.
Proof.
  intros m ops st a im H E Ea D Hc Hs. destruct (C43_container_consistent m ops H) as (st' & E' & C).
  assert (st' = st) by congruence. subst st'. destruct (idata im) as [[b o]|] eqn:Dp; [|contradiction].
  destruct (k_full _ C a im b o Ea Dp) as (H1 & H2 & H3 & H4 & -> & H6 & H7).
  constructor; unfold ibase; rewrite ?Dp; cbn; try lia. discriminate.
Qed.
Theorem C43_images_disjoint : forall m ops st a1 a2 im1 im2, ops_ok (cinit m) ops -> crun (cinit m) ops = Ok st ->
  a1 <> a2 -> cim st a1 = Some im1 -> cim st a2 = Some im2 -> idata im1 <> None -> idata im2 <> None ->
  forall x1 y1 c1 x2 y2 c2, px im1 x1 y1 c1 <> px im2 x2 y2 c2.
Proof.
  intros m ops st a1 a2 im1 im2 H E N E1 E2 D1 D2 x1 y1 c1 x2 y2 c2.
  destruct (C43_container_consistent m ops H) as (st' & E' & C). assert (st' = st) by congruence. subst st'.
  destruct (idata im1) as [p1|] eqn:Dp1; [|contradiction]. destruct (idata im2) as [p2|] eqn:Dp2; [|contradiction].
  pose proof (k_alone _ C a1 a2 im1 im2 p1 p2 N E1 E2 Dp1 Dp2) as Hn.
  unfold px, ibase. rewrite Dp1, Dp2. intros Heq. injection Heq as Hb _. contradiction.
Qed.

(** A program that uses all operations. *)
Definition demo : list cop :=
  [CNew 0 0 5 3 3 4; CFill 0 7; CWrite 0 2 9; CCopyCtor 1 0; CNew 2 0 0 0 1 1; CCopy 2 0; CMove 2 1; CSwap 0 1;
   CResize 1 6 6; CSetColorCount 1 4; CSetAlignment 1 16; CMutate 0 16 3 1 1; CAssign 1 100 10 10 1 1; CMoveCtor 3 1;
   CClear 3; CDelete 0].
Definition zero_mem : mem := fun _ => mkBlock 0 (fun _ => 0).
(** A boolean check of [op_ok], to run on examples. *)
Definition is_some {A} (x : option A) : bool := match x with Some _ => true | None => false end.
Definition fitsb (w h cc al : Z) : bool :=
  (0 <=? w) && (w <? W32) && (0 <=? h) && (h <? W32) && (0 <=? cc) && (cc <? 256) && (0 <=? al) && (al <? 256) &&
  ((al <=? 0) || (roundup (w * cc) al <? W32)).
Definition op_okb (st : cstate) (o : cop) : bool :=
  match o with
  | CNew a ty w h cc al => negb (is_some (cim st a)) && fitsb w h (if cc =? 0 then 1 else cc) (if al =? 0 then 1 else al)
  | CDelete a | CClear a | CFill a _ => is_some (cim st a)
  | CCopyCtor a b | CMoveCtor a b => negb (is_some (cim st a)) && is_some (cim st b)
  | CCopy a b | CMove a b | CSwap a b => is_some (cim st a) && is_some (cim st b)
  | CResize a w h => match cim st a with Some im => fitsb w h (icc im) (ial im) | None => false end
  | CSetColorCount a cc => is_some (cim st a) && ((0 <=? cc) && (cc <? 256))
  | CSetAlignment a al => is_some (cim st a) && ((0 <=? al) && (al <? 256))
  | CMutate a w h cc al => match cim st a with
      | Some im => fitsb w h cc al && ((al <=? 0) || (roundup (w * cc) al * h <? W32)) && (ih im * irs im <? W32)
      | None => false end
  | CAssign a n w h cc al => is_some (cim st a) && fitsb w h cc al && ((al <=? 0) || (h * roundup (w * cc) al <=? n))
  | CWrite a k v => match cim st a with
      | Some im => is_some (idata im) && ((0 <=? k) && (k <? ih im * irs im))
      | None => false end
  end.
Fixpoint ops_okb (st : cstate) (ops : list cop) : bool :=
  match ops with
  | [] => true
  | o :: t => op_okb st o && match cstep st o with Ok st' | Throw st' => ops_okb st' t | _ => true end
  end.
Lemma is_some_ok {A} (x : option A) : is_some x = true -> x <> None.
Proof. destruct x; [discriminate|intros H; discriminate H]. Qed.
Lemma is_none_ok {A} (x : option A) : negb (is_some x) = true -> x = None.
Proof. destruct x; [intros H; discriminate H|reflexivity]. Qed.
Lemma fitsb_ok w h cc al : fitsb w h cc al = true -> fits w h cc al.
Proof. unfold fitsb, fits. intros H. rewrite !andb_true_iff, orb_true_iff in H. lia. Qed.
Lemma op_okb_ok st o : op_okb st o = true -> op_ok st o.
Proof.
  destruct o; cbn [op_okb op_ok]; intros H.
  - apply andb_prop in H as [H1 H2]. split; [apply is_none_ok|apply fitsb_ok]; assumption.
  - apply is_some_ok; assumption.
  - apply andb_prop in H as [H1 H2]. split; [apply is_none_ok|apply is_some_ok]; assumption.
  - apply andb_prop in H as [H1 H2]. split; [apply is_none_ok|apply is_some_ok]; assumption.
  - apply andb_prop in H as [H1 H2]. split; apply is_some_ok; assumption.
  - apply andb_prop in H as [H1 H2]. split; apply is_some_ok; assumption.
  - apply andb_prop in H as [H1 H2]. split; apply is_some_ok; assumption.
  - destruct (cim st a) as [im|]; [|discriminate]. exists im. split; [reflexivity|apply fitsb_ok; assumption].
  - apply is_some_ok; assumption.
  - apply andb_prop in H as [H1 H2]. split; [apply is_some_ok; assumption|lia].
  - apply andb_prop in H as [H1 H2]. split; [apply is_some_ok; assumption|lia].
  - destruct (cim st a) as [im|]; [|discriminate]. exists im. split; [reflexivity|].
    apply andb_prop in H as [H H3]. apply andb_prop in H as [H1 H2]. split; [apply fitsb_ok; assumption|].
    rewrite orb_true_iff in H2. lia.
  - apply andb_prop in H as [H H3]. apply andb_prop in H as [H1 H2]. split; [apply is_some_ok; assumption|].
    split; [apply fitsb_ok; assumption|]. rewrite orb_true_iff in H3. lia.
  - apply is_some_ok; assumption.
  - destruct (cim st a) as [im|] eqn:E; [|discriminate]. destruct (idata im) as [p|] eqn:D; [|discriminate]. exists im, p.
    split; [reflexivity|]. split; [exact D|]. cbn in H. lia.
Qed.
Lemma ops_okb_ok : forall ops st, ops_okb st ops = true -> ops_ok st ops.
Proof.
  induction ops as [|o t IH]; intros st H; cbn [ops_okb ops_ok] in *; [exact I|].
  apply andb_prop in H as [H1 H2]. split; [apply op_okb_ok; exact H1|].
  intros st' [E|E]; rewrite E in H2; apply IH; exact H2.
Qed.
Example demo_ok : ops_ok (cinit zero_mem) demo.
Proof. apply ops_okb_ok. vm_compute. reflexivity. Qed.
Example demo_run : (match crun (cinit zero_mem) demo with
  | Ok st => match cim st 2 with
             | Some im => (iw im =? 5) && (irs im =? 16) && (get (cmem st) (px im 0 0 2) =? 9)
             | None => false end
  | _ => false end) = true.
Proof. vm_compute. reflexivity. Qed.

Print Assumptions C43_container_consistent.
Print Assumptions C43_no_leak.
Print Assumptions C43_images_well_formed.
Print Assumptions C43_images_disjoint.

(** The geometry asked for is the geometry one gets, with a buffer. *)
Theorem C43_resize_result : forall m ops st a w h im, ops_ok (cinit m) ops -> crun (cinit m) ops = Ok st ->
  cim st a = Some im -> fits w h (icc im) (ial im) -> 0 < w -> 0 < h ->
  exists st' im', cstep st (CResize a w h) = Ok st' /\ cim st' a = Some im' /\
    iw im' = w /\ ih im' = h /\ icc im' = icc im /\ ial im' = ial im /\ idata im' <> None.
Proof.
  intros m ops st a w h im H E Ea F Hw Hh. destruct (crun_ok ops (cinit m) (cinv_init m) H) as (s & E' & I).
  assert (s = st) by congruence. subst s. destruct (resize_ok st a im w h I Ea F) as (st' & R & I' & _ & _ & G & _).
  destruct (G Hw Hh) as (im' & E1 & G1 & G2 & G3 & G4 & _). exists st', im'. cbn [cstep]. unfold with_img. rewrite Ea.
  repeat (split; [assumption|]). intros D. pose proof (ok_empty _ (ci_img _ I' a im' E1) D). lia.
Qed.
Example C43_resize_case : fits 5 3 3 4 /\ 0 < 5 /\ 0 < 3.
Proof. split; [apply fitsb_ok; reflexivity|lia]. Qed.
Print Assumptions C43_resize_result.

(** ** C45 *)
Definition reached (st : cstate) : Prop := exists m ops, ops_ok (cinit m) ops /\ crun (cinit m) ops = Ok st.
Lemma reached_cinv st : reached st -> cinv st.
Proof.
  intros (m & ops & H & E). destruct (crun_ok ops (cinit m) (cinv_init m) H) as (s & E' & I). congruence.
Qed.

(** Equal geometry and equal samples in two different buffers. *)
Record equal_copy (m : mem) (im : image) (m0 : mem) (src : image) : Prop := mkEqc {
  eq_w : iw im = iw src;
  eq_h : ih im = ih src;
  eq_cc : icc im = icc src;
  eq_al : ial im = ial src;
  eq_rs : irs im = irs src;
  eq_data : idata im = None <-> idata src = None;
  eq_px : forall x y c, idata src <> None -> inside (iw src) (ih src) (icc src) x y c ->
    pixel m im x y c = pixel m0 src x y c
}.

Lemma equal_copy_of st st' im' src : img_ok src ->
  (forall q, idata src = Some q -> snd q = 0) ->
  iw im' = iw src -> ih im' = ih src -> icc im' = icc src -> ial im' = ial src -> irs im' = irs src ->
  match idata im', idata src with
  | Some p, Some q => fst p <> fst q /\ same_contents (cmem st') p (cmem st) q (ih src * irs src)
  | None, None => True
  | _, _ => False
  end -> equal_copy (cmem st') im' (cmem st) src.
Proof.
  intros Hok H0 Ew Eh Ec Ea Er Hd. constructor; auto.
  - destruct (idata im'), (idata src); try contradiction; split; congruence.
  - intros x y c D (Hx & Hy & Hc). unfold pixel, px, ibase.
    destruct (idata im') as [p|], (idata src) as [q|] eqn:Dq; try contradiction.
    destruct Hd as (_ & Hd). specialize (Hd (y * irs src + x * icc src + c)). unfold padd in Hd.
    rewrite Er, Ec.
    destruct (ok_geo _ Hok q Dq) as (H1 & H2 & H3 & H4). pose proof (roundup_ge (iw src * icc src) (ial src) (ok_al _ Hok)).
    pose proof (ok_cc _ Hok).
    rewrite !Z.add_assoc in Hd. apply Hd. nia.
Qed.

Theorem C45_copy_construction_equal : forall st a b src, reached st -> cim st a = None -> cim st b = Some src ->
  exists st' im, cstep st (CCopyCtor a b) = Ok st' /\ cim st' a = Some im /\ cim st' b = Some src /\
    equal_copy (cmem st') im (cmem st') src.
Proof.
  intros st a b src R Ea Eb. pose proof (reached_cinv st R) as I. cbn [cstep]. unfold with_img. rewrite Eb.
  destruct (new_ok st a (ity src) I Ea) as (-> & I1 & F1). cbn [bind]. rewrite set_same.
  assert (N : b <> a) by congruence. assert (Eb1 : cim (set_img st a (Some (default_image (ity src)))) b = Some src).
  { rewrite set_other by assumption. exact Eb. }
  destruct (copy_ok _ a (default_image (ity src)) b src I1 (set_same _ _ _) Eb1) as
    (st2 & im2 & -> & I2 & F2 & _ & E2 & W & H & C & A & Rs & _ & D); [auto|reflexivity|].
  destruct (F2 b src (not_eq_sym N) Eb1) as (Eb2 & M2).
  exists st2, im2. split; [reflexivity|]. split; [exact E2|]. split; [exact Eb2|].
  apply (equal_copy_of st2 st2); auto.
  - apply (ci_img _ I2 b src Eb2).
  - intros q Hq. apply (ci_buf _ I2 b src q Eb2 Hq).
  - destruct (idata im2), (idata src) as [q|]; auto. destruct D as (D1 & D2). split; [exact D1|].
    intros k Hk. rewrite D2 by exact Hk. destruct (M2 q eq_refl) as (_ & G). cbn. symmetry. apply G.
Qed.
Theorem C45_copy_assignment_equal : forall st a b im0 src, reached st -> a <> b -> cim st a = Some im0 ->
  cim st b = Some src -> ity im0 = ity src ->
  exists st' im, cstep st (CCopy a b) = Ok st' /\ cim st' a = Some im /\ cim st' b = Some src /\
    equal_copy (cmem st') im (cmem st') src.
Proof.
  intros st a b im0 src R N Ea Eb T. pose proof (reached_cinv st R) as I. cbn [cstep]. unfold with_img. rewrite Ea, Eb.
  destruct (copy_ok st a im0 b src I Ea Eb N T) as
    (st2 & im2 & -> & I2 & F2 & _ & E2 & W & H & C & A & Rs & _ & D).
  destruct (F2 b src N Eb) as (Eb2 & M2).
  exists st2, im2. split; [reflexivity|]. split; [exact E2|]. split; [exact Eb2|].
  apply (equal_copy_of st2 st2); auto.
  - apply (ci_img _ I2 b src Eb2).
  - intros q Hq. apply (ci_buf _ I2 b src q Eb2 Hq).
  - destruct (idata im2), (idata src) as [q|]; auto. destruct D as (D1 & D2). split; [exact D1|].
    intros k Hk. rewrite D2 by exact Hk. destruct (M2 q eq_refl) as (_ & G). cbn. symmetry. apply G.
Qed.

(** Whatever a program does to other objects, the object [c] keeps its geometry and every
    sample. *)
Theorem C45_independent : forall ops st c im, reached st -> ops_ok st ops ->
  (forall o, In o ops -> ~ touches o c) -> cim st c = Some im ->
  exists st', crun st ops = Ok st' /\ cim st' c = Some im /\
    (idata im <> None -> forall x y k, pixel (cmem st') im x y k = pixel (cmem st) im x y k).
Proof.
  assert (G : forall ops st c im, cinv st -> ops_ok st ops -> (forall o, In o ops -> ~ touches o c) ->
    cim st c = Some im -> exists st', crun st ops = Ok st' /\ cim st' c = Some im /\
      (forall p, idata im = Some p -> forall o, get (cmem st') (fst p, o) = get (cmem st) (fst p, o))).
  { induction ops as [|o t IH]; intros st c im I H Ht E; [exists st; auto|].
    destruct H as (Ho & Hn). destruct (cstep_ok st o I Ho) as (st1 & Hs & I1 & F1).
    destruct (F1 c im (Ht o (or_introl eq_refl)) E) as (E1 & M1).
    destruct (IH st1 c im I1) as (st2 & R2 & E2 & M2).
    - apply Hn. destruct Hs as [?|[? ?]]; auto.
    - intros o' Hin. apply Ht. right. exact Hin.
    - exact E1.
    - exists st2. cbn [crun]. split; [destruct Hs as [->|[-> ->]]; exact R2|]. split; [exact E2|].
      intros p Hp x. rewrite (M2 p Hp). apply (M1 p Hp). }
  intros ops st c im R H Ht E. destruct (G ops st c im (reached_cinv st R) H Ht E) as (st' & R' & E' & M).
  exists st'. split; [exact R'|]. split; [exact E'|]. intros D x y k. unfold pixel, px, ibase.
  destruct (idata im) as [p|]; [|contradiction]. apply (M p eq_refl).
Qed.

(** Moving exchanges the two objects: the target gets the source's former description
    and buffer, and no sample changes. *)
Theorem C45_move_transfers : forall st a b ia ib, reached st -> a <> b -> cim st a = Some ia -> cim st b = Some ib ->
  exists st', cstep st (CMove a b) = Ok st' /\ cim st' a = Some ib /\ cim st' b = Some ia /\
    (forall p, get (cmem st') p = get (cmem st) p).
Proof.
  intros st a b ia ib R N Ea Eb. cbn [cstep]. unfold with_img. rewrite Ea, Eb.
  destruct (swap_ok st a b ia ib (reached_cinv st R) Ea Eb) as (_ & _ & E1 & E2).
  eexists. split; [reflexivity|]. destruct (Z.eqb_spec a b); [contradiction|]. auto.
Qed.
Theorem C45_move_construction_transfers : forall st a b ib, reached st -> cim st a = None -> cim st b = Some ib ->
  exists st' ie, cstep st (CMoveCtor a b) = Ok st' /\ cim st' a = Some ib /\ cim st' b = Some ie /\ idata ie = None /\
    (forall p, get (cmem st') p = get (cmem st) p).
Proof.
  intros st a b ib R Ea Eb. cbn [cstep]. unfold with_img. rewrite Eb.
  destruct (new_ok st a 0 (reached_cinv st R) Ea) as (-> & I1 & _). cbn [bind]. rewrite set_same.
  assert (N : b <> a) by congruence.
  destruct (swap_ok _ a b (default_image 0) ib I1 (set_same _ _ _)) as (_ & _ & E1 & E2).
  { rewrite set_other by assumption. exact Eb. }
  destruct (Z.eqb_spec a b); [congruence|].
  eexists. exists (default_image 0). split; [reflexivity|]. auto.
Qed.

(** A program that reaches a state with two non-empty images, and further operations on one
    of them. *)
Definition demo2 : list cop := [CNew 0 0 5 3 3 4; CFill 0 7; CNew 1 0 2 2 1 1; CFill 1 8].
Definition demo3 : list cop := [CWrite 0 3 1; CResize 0 9 9; CFill 0 1; CDelete 0].
Definition state_of (r : res cstate cstate) : cstate := match r with Ok s => s | _ => cinit zero_mem end.
Definition st2 : cstate := state_of (crun (cinit zero_mem) demo2).
Example C45_case_reached : reached st2.
Proof.
  exists zero_mem, demo2. assert (H : ops_ok (cinit zero_mem) demo2) by (apply ops_okb_ok; vm_compute; reflexivity).
  split; [exact H|]. destruct (crun_ok _ _ (cinv_init zero_mem) H) as (s & E & _).
  unfold st2. rewrite E. reflexivity.
Qed.
Example C45_case_objects : (match cim st2 0, cim st2 1 with
  | Some i0, Some i1 => is_some (idata i0) && is_some (idata i1) && (ity i0 =? ity i1) && negb (is_some (cim st2 2))
  | _, _ => false end) = true.
Proof. vm_compute. reflexivity. Qed.
Example C45_case_ops : ops_ok st2 demo3 /\ forall o, In o demo3 -> ~ touches o 1.
Proof.
  split; [apply ops_okb_ok; vm_compute; reflexivity|].
  intros o H. cbn in H. repeat destruct H as [<-|H]; try contradiction; cbn; discriminate.
Qed.
Print Assumptions C45_copy_construction_equal.
Print Assumptions C45_copy_assignment_equal.
Print Assumptions C45_independent.
Print Assumptions C45_move_transfers.
Print Assumptions C45_move_construction_transfers.

(** ** C46: false. *)
Definition C46_claim : Prop := forall st a im, reached st -> cim st a = Some im ->
  exists st' im', cstep st (CCopy a a) = Ok st' /\ cim st' a = Some im' /\
    iw im' = iw im /\ ih im' = ih im /\
    forall x y c, pixel (cmem st') im' x y c = pixel (cmem st) im x y c.
Theorem C46_self_assignment_refuted : ~ C46_claim.
Proof.
  intros H. destruct (cim st2 0) as [im|] eqn:E; [|vm_compute in E; discriminate].
  destruct (H st2 0 im C45_case_reached E) as (st' & im' & E1 & E2 & W & _).
  assert (B : (match cstep st2 (CCopy 0 0), cim st2 0 with
               | Ok s, Some i => match cim s 0 with Some i' => negb (iw i' =? iw i) | None => false end
               | _, _ => false end) = true) by (vm_compute; reflexivity).
  rewrite E1, E, E2 in B. rewrite W in B. rewrite Z.eqb_refl in B. discriminate.
Qed.
Print Assumptions C46_self_assignment_refuted.

(** What self-assignment does: the image becomes empty. *)
Theorem C46_self_assignment_empties : forall st a im, reached st -> cim st a = Some im ->
  exists st', cstep st (CCopy a a) = Ok st' /\ cim st' a = Some (mkImage 0 0 (icc im) (ial im) 0 None (ity im)).
Proof.
  intros st a im R E. cbn [cstep]. unfold with_img. rewrite E.
  destruct (copy_self_ok st a im (reached_cinv st R) E) as (st' & -> & _ & _ & E'). eauto.
Qed.
Print Assumptions C46_self_assignment_empties.

(** ** C44: false for dimensions whose products exceed 32 bits. *)
Definition dims (w h cc al : Z) : Prop := 0 <= w < W32 /\ 0 <= h < W32 /\ 0 < cc < 256 /\ 0 < al < 256.
(** resize: rows hold their samples *)
Definition C44_resize_claim : Prop := forall w h cc al st im, dims w h cc al ->
  crun (cinit zero_mem) [CNew 0 0 w h cc al] = Ok st -> cim st 0 = Some im -> iw im * icc im <= irs im.
(** mutate: a successful mutate leaves an image with a buffer for its rows *)
Definition C44_mutate_claim : Prop := forall w0 h0 cc0 al0 w h cc al st im,
  dims w0 h0 cc0 al0 -> dims w h cc al -> 0 < w -> 0 < h ->
  crun (cinit zero_mem) [CNew 0 0 w0 h0 cc0 al0] = Ok st -> cim st 0 = Some im ->
  snd (mutate im w h cc al) = true -> exists p, idata (fst (mutate im w h cc al)) = Some p /\
    ih (fst (mutate im w h cc al)) * irs (fst (mutate im w h cc al)) <= len (cmem st) (fst p).
Lemma crun1 (P : image -> bool) o : (match crun (cinit zero_mem) [o] with
    | Ok st => match cim st 0 with Some im => P im | None => false end | _ => false end) = true ->
  exists st im, crun (cinit zero_mem) [o] = Ok st /\ cim st 0 = Some im /\ P im = true.
Proof.
  destruct (crun _ _) as [st|e| |]; try discriminate. destruct (cim st 0) as [im|] eqn:E; [|discriminate]. eauto.
Qed.
Theorem C44_resize_refuted : ~ C44_resize_claim.
Proof.
  intros H. destruct (crun1 (fun im => irs im <? iw im * icc im) (CNew 0 0 (2 ^ 31) 1 2 1)) as (st & im & E & Ei & P);
    [vm_compute; reflexivity|].
  specialize (H (2 ^ 31) 1 2 1 st im). unfold dims, W32 in H. apply Z.ltb_lt in P. specialize (H ltac:(lia) E Ei). lia.
Qed.
Theorem C44_mutate_refuted : ~ C44_mutate_claim.
Proof.
  intros H.
  destruct (crun1 (fun im => snd (mutate im 65536 65536 1 1) && negb (is_some (idata (fst (mutate im 65536 65536 1 1)))))
    (CNew 0 0 0 0 1 1)) as (st & im & E & Ei & P); [vm_compute; reflexivity|].
  apply andb_prop in P as [P1 P2].
  destruct (H 0 0 1 1 65536 65536 1 1 st im) as (p & D & _); auto; unfold dims, W32; try lia.
  rewrite D in P2. discriminate.
Qed.
Print Assumptions C44_resize_refuted.
Print Assumptions C44_mutate_refuted.

(** The part that holds: sizes below 2^32. *)
Theorem C44_mutate_partial : forall st a im w h cc al, reached st -> cim st a = Some im ->
  fits w h cc al -> (0 < al -> roundup (w * cc) al * h < W32) -> ih im * irs im < W32 -> 0 < w -> 0 < h ->
  snd (mutate im w h cc al) = true ->
  let im' := fst (mutate im w h cc al) in
  iw im' = w /\ ih im' = h /\ icc im' = cc /\ ial im' = al /\
  exists p, idata im' = Some p /\ snd p = 0 /\ w * cc <= irs im' /\ ih im' * irs im' <= len (cmem st) (fst p).
Proof.
  intros st a im w h cc al R E F Hs Hi Hw Hh Ht im'. pose proof (reached_cinv st R) as I.
  destruct (mutate_ok im w h cc al (ci_img _ I a im E) F Hs Hi) as (Hok & Hd & Hz).
  fold im' in Hok, Hd, Hz.
  assert (G : iw im' = w /\ ih im' = h /\ icc im' = cc /\ ial im' = al).
  { unfold im', mutate in *. destruct ((0 <? cc) && (0 <? al)); [|discriminate].
    destruct (negb _); [discriminate|]. auto. }
  destruct G as (G1 & G2 & G3 & G4). repeat (split; [assumption|]).
  destruct (idata im') as [p|] eqn:D.
  - exists p. split; [reflexivity|]. symmetry in Hd.
    destruct (ci_buf _ I a im p E Hd) as (B1 & B2 & B3). split; [exact B1|].
    destruct (ok_geo _ Hok p D) as (_ & _ & Hr & _). rewrite Hz by congruence.
    split; [|exact B3]. rewrite Hr, G1, G3. pose proof (ok_al _ Hok) as Hal. rewrite G4 in *. apply roundup_ge. exact Hal.
  - pose proof (ok_empty _ Hok D). lia.
Qed.
Example C44_case : (match cim st2 0 with
  | Some im => fitsb 16 3 1 1 && (ih im * irs im <? W32) && snd (mutate im 16 3 1 1)
  | None => false end) = true.
Proof. vm_compute. reflexivity. Qed.
Print Assumptions C44_mutate_partial.
