(** Properties C142 to C149: images, arrays, streams, queues and managers of the device back
    ends. *)
From Coq Require Import ZArith List Bool Lia Permutation.
From Verif Require Import Base Image Spec BaseProofs SafeProofs Container ContainerProofs PropsC Device.
Import ListNotations.
Open Scope Z_scope.

Ltac Zify.zify_post_hook ::= idtac.

(** ** C142: copies of device images *)
Definition C142_copy_claim : Prop := forall st a b src, reached st -> cim st a = None -> cim st b = Some src ->
  In (ity src) [type_cuda; type_pinned; type_opencl] ->
  exists st' im, device_copy_ctor st a b = Ok st' /\ cim st' a = Some im /\ cim st' b = Some src /\
    equal_copy (cmem st') im (cmem st') src.
(** An image that has been moved from can be used again: another image of its kind can be
    assigned to it. *)
Definition C142_moved_claim : Prop := forall st a b c srcb srcc, reached st -> cim st a = None -> b <> c ->
  cim st b = Some srcb -> cim st c = Some srcc -> ity srcb = ity srcc -> In (ity srcb) [type_cuda; type_pinned; type_opencl] ->
  exists st1 st2, device_move_ctor st a b = Ok st1 /\ cstep st1 (CCopy b c) = Ok st2.

(** The copy constructor of a device image always throws, and nothing else happens. *)
Theorem C142_copy_throws st a b src : cim st a = None -> cim st b = Some src -> ity src <> 0 ->
  exists st', device_copy_ctor st a b = Throw st' /\ (forall c, cim st' c = cim st c) /\
    cmem st' = cmem st /\ clive st' = clive st /\ cnext st' = cnext st.
Proof.
  intros Ea Eb T. unfold device_copy_ctor, with_img, new_img. rewrite Eb, Ea. cbn [bind]. rewrite set_same.
  unfold copy. cbn [default_image ity]. destruct (Z.eqb_spec 0 (ity src)) as [E|_]; [congruence|].
  cbn [default_image idata]. rewrite set_same. unfold clear. cbn [idata default_image bind].
  eexists. split; [reflexivity|]. cbn. split; [|auto].
  intros c. destruct (Z.eqb_spec c a) as [->|]; [symmetry; exact Ea|reflexivity].
Qed.
(** What works: default-construct an image of the kind, then assign. *)
Theorem C142_assignment_partial st a b src : reached st -> cim st a = None -> cim st b = Some src ->
  exists st1 st2 im, cstep st (CNew a (ity src) 0 0 1 1) = Ok st1 /\ cstep st1 (CCopy a b) = Ok st2 /\
    cim st2 a = Some im /\ cim st2 b = Some src /\ equal_copy (cmem st2) im (cmem st2) src.
Proof.
  intros R Ea Eb. assert (N : b <> a) by congruence.
  destruct (cstep_ok st (CNew a (ity src) 0 0 1 1) (reached_cinv st R)) as (st1 & Hs & I1 & _).
  { cbn. split; [exact Ea|]. unfold fits, W32, roundup. cbn. repeat split; try lia. }
  assert (E1 : cstep st (CNew a (ity src) 0 0 1 1) = Ok (set_img st a (Some (default_image (ity src))))).
  { cbn [cstep]. unfold new_img. rewrite Ea. cbn [bind]. unfold with_img. rewrite set_same.
    set (s1 := set_img st a (Some (default_image (ity src)))).
    assert (S1 : cim s1 a = Some (default_image (ity src))) by apply set_same.
    change (setColorCount s1 a (default_image (ity src)) 1) with (@Ok cstate cstate s1). cbn [bind]. rewrite S1.
    change (setAlignment s1 a (default_image (ity src)) 1) with (@Ok cstate cstate s1). cbn [bind]. rewrite S1. reflexivity. }
  rewrite E1 in Hs. destruct Hs as [H|[H _]]; [|discriminate]. injection H as <-.
  set (st1 := set_img st a (Some (default_image (ity src)))) in *.
  destruct (copy_ok st1 a (default_image (ity src)) b src I1) as
    (st2 & im2 & E2 & I2 & F2 & _ & Em & W & H & C & A & Rs & _ & D); try (unfold st1; rewrite set_same; reflexivity).
  { unfold st1. rewrite set_other by assumption. exact Eb. }
  { congruence. }
  { reflexivity. }
  assert (Eb1 : cim st1 b = Some src) by (unfold st1; rewrite set_other by assumption; exact Eb).
  destruct (F2 b src (not_eq_sym N) Eb1) as (Eb2 & M2).
  exists st1, st2, im2. split; [exact E1|]. split.
  { cbn [cstep]. unfold with_img. rewrite Eb1. unfold st1 at 1. rewrite set_same. exact E2. }
  split; [exact Em|]. split; [exact Eb2|]. apply (equal_copy_of st2 st2); auto.
  - apply (ci_img _ I2 b src Eb2).
  - intros q Hq. apply (ci_buf _ I2 b src q Eb2 Hq).
  - destruct (idata im2), (idata src) as [q|]; auto. destruct D as (D1 & D2). split; [exact D1|].
    intros k Hk. rewrite D2 by exact Hk. destruct (M2 q eq_refl) as (_ & G). cbn. symmetry. apply G.
Qed.
(** The move constructor: the new image takes over description and buffer, the source
    becomes an empty image of the host. *)
Theorem C142_move_partial st a b src : reached st -> cim st a = None -> cim st b = Some src ->
  exists st', device_move_ctor st a b = Ok st' /\ cim st' a = Some src /\ cim st' b = Some (default_image 0) /\
    (forall c, c <> a -> c <> b -> cim st' c = cim st c) /\ cmem st' = cmem st.
Proof.
  intros R Ea Eb. assert (N : b <> a) by congruence.
  unfold device_move_ctor, with_img, new_img. rewrite Eb, Ea. cbn [bind]. rewrite set_same. unfold swap.
  eexists. split; [reflexivity|]. split; [|split; [|split; [|reflexivity]]].
  - rewrite set_other by congruence. apply set_same.
  - apply set_same.
  - intros c Na Nb. rewrite !set_other by assumption. reflexivity.
Qed.
Theorem C142_moved_from_refuses st st' a b c srcc : reached st -> cim st a = None -> b <> c -> cim st b <> None ->
  cim st c = Some srcc -> ity srcc <> 0 -> device_move_ctor st a b = Ok st' -> cstep st' (CCopy b c) = Throw st'.
Proof.
  intros R Ea Nbc Eb Ec T E. destruct (cim st b) as [src|] eqn:Eb'; [|contradiction].
  destruct (C142_move_partial st a b src R Ea Eb') as (st1 & E' & _ & H2 & H3 & _). rewrite E in E'. injection E' as <-.
  assert (Hc : cim st' c = Some srcc) by (rewrite H3 by congruence; exact Ec).
  cbn [cstep]. unfold with_img. rewrite H2, Hc. unfold copy. cbn [default_image ity].
  destruct (Z.eqb_spec 0 (ity srcc)); [congruence|reflexivity].
Qed.

(** Two OpenCL images of 5 x 3. *)
Definition demoW : list cop := [CNew 0 3 5 3 1 1; CFill 0 7; CNew 1 3 5 3 1 1; CFill 1 8].
Definition stW : cstate := state_of (crun (cinit zero_mem) demoW).
Lemma stW_reached : reached stW.
Proof.
  exists zero_mem, demoW. assert (H : ops_ok (cinit zero_mem) demoW) by (apply ops_okb_ok; vm_compute; reflexivity).
  split; [exact H|]. destruct (crun_ok _ _ (cinv_init zero_mem) H) as (s & E & _).
  unfold stW. rewrite E. reflexivity.
Qed.
Example C142_case : exists im0 im1, cim stW 0 = Some im0 /\ cim stW 1 = Some im1 /\ cim stW 2 = None /\ ity im0 = type_opencl /\
  ity im1 = type_opencl /\ iw im0 = 5 /\ idata im0 <> None.
Proof. do 2 eexists. repeat split; try (vm_compute; reflexivity). vm_compute. discriminate. Qed.
Theorem C142_copy_refuted : ~ C142_copy_claim.
Proof.
  intros H. destruct C142_case as (im0 & im1 & E0 & _ & E2 & T & _).
  destruct (H stW 2 0 im0 stW_reached E2 E0) as (st' & im & E & _).
  { rewrite T. cbn. tauto. }
  destruct (C142_copy_throws stW 2 0 im0 E2 E0) as (st1 & E' & _); [rewrite T; discriminate|].
  rewrite E in E'. discriminate.
Qed.
Theorem C142_moved_refuted : ~ C142_moved_claim.
Proof.
  intros H. destruct C142_case as (im0 & im1 & E0 & E1 & E2 & T & T1 & _).
  destruct (H stW 2 0 1 im0 im1 stW_reached E2 ltac:(discriminate) E0 E1) as (st1 & st2 & Em & Ec).
  { congruence. }
  { rewrite T. cbn. tauto. }
  rewrite (C142_moved_from_refuses stW st1 2 0 1 im1 stW_reached E2 ltac:(discriminate) ltac:(congruence) E1) in Ec; [discriminate| |exact Em].
  rewrite T1. discriminate.
Qed.
Print Assumptions C142_copy_throws.
Print Assumptions C142_copy_refuted.
Print Assumptions C142_moved_refuted.
Print Assumptions C142_assignment_partial.
Print Assumptions C142_move_partial.
Print Assumptions C142_moved_from_refuses.

(** ** C143: arrays on a device *)

(** Memory from the allocator has the size asked for. *)
Definition right_size (mem : nat -> option (list Z)) : Prop := forall n l, mem n = Some l -> length l = n.
Definition never_fails (mem : nat -> option (list Z)) : Prop := forall n, mem n <> None.
Definition op_mem (o : aop) : nat -> option (list Z) := match o with AAssign m _ | AResize m _ | ACopy m _ => m end.
(** The source of a copy is an array: its memory has its size. *)
Definition op_src_ok (o : aop) : Prop :=
  match o with ACopy _ src => forall l, adata src = Some l -> length l = asize src | _ => True end.
Definition history_ok (ops : list aop) : Prop := forall o, In o ops -> right_size (op_mem o) /\ op_src_ok o.
Definition run_array (ops : list aop) : darray := fold_left astep ops arr_new.

(** Assignment that returns has stored the values. *)
Definition C143_assign_claim : Prop := forall ops mem v a, history_ok ops -> right_size mem ->
  arr_assign mem v (run_array ops) = Ok a -> arr_get a = v /\ asize a = length v.
(** One array can be assigned to another. *)
Definition C143_copy_claim : Prop := forall ops ops' mem, history_ok ops -> history_ok ops' -> right_size mem -> never_fails mem ->
  exists a, arr_copy mem (run_array ops') (run_array ops) = Ok a /\ arr_get a = arr_get (run_array ops').

(** In every history: memory has the size of the array, if there is memory. *)
Lemma allocate_sized mem n a : right_size mem -> (forall l, adata a = Some l -> length l = asize a) ->
  forall b, arr_allocate mem n a = Ok b \/ arr_allocate mem n a = Throw b -> forall l, adata b = Some l -> length l = asize b.
Proof.
  intros Hm Ha b Hb l. unfold arr_allocate in Hb. destruct (Nat.eqb_spec (asize a) n) as [E|N].
  { destruct Hb as [Hb|Hb]; [|discriminate]. injection Hb as <-. apply Ha. }
  destruct (Nat.eqb_spec n 0) as [->|N0].
  { destruct Hb as [Hb|Hb]; [|discriminate]. injection Hb as <-. discriminate. }
  destruct (mem n) as [l'|] eqn:Em.
  - destruct Hb as [Hb|Hb]; [|discriminate]. injection Hb as <-. cbn. intros H. injection H as <-. apply Hm, Em.
  - destruct Hb as [Hb|Hb]; [discriminate|]. injection Hb as <-. discriminate.
Qed.
Lemma allocate_cases mem n a : (exists b, arr_allocate mem n a = Ok b) \/ (exists b, arr_allocate mem n a = Throw b).
Proof.
  unfold arr_allocate. destruct (Nat.eqb (asize a) n); [eauto|]. destruct (Nat.eqb n 0); [eauto|]. destruct (mem n); eauto.
Qed.
Lemma copyFrom_sized v a : (forall l, adata a = Some l -> length l = asize a) ->
  forall l, adata (arr_copyFrom v a) = Some l -> length l = asize (arr_copyFrom v a).
Proof.
  intros Ha l. unfold arr_copyFrom. destruct (adata a) as [l'|] eqn:D; [|rewrite D; discriminate].
  destruct (Nat.eqb_spec (asize a) (length v)) as [E|_]; [|rewrite D; intros H; apply Ha; exact H].
  cbn. intros H. injection H as <-. auto.
Qed.
Lemma astep_sized a o : right_size (op_mem o) -> op_src_ok o -> (forall l, adata a = Some l -> length l = asize a) ->
  forall l, adata (astep a o) = Some l -> length l = asize (astep a o).
Proof.
  intros Hm Hs Ha. destruct o as [mem v|mem n|mem src]; cbn [op_mem op_src_ok] in *; cbn [astep].
  - unfold arr_assign. destruct (allocate_cases mem (length v) a) as [(b & E)|(b & E)]; rewrite E; cbn [bind aresult].
    + apply copyFrom_sized. apply (allocate_sized mem (length v) a Hm Ha b). auto.
    + apply (allocate_sized mem (length v) a Hm Ha b). auto.
  - unfold arr_resize. destruct (allocate_cases mem n a) as [(b & E)|(b & E)]; rewrite E; cbn [aresult];
      apply (allocate_sized mem n a Hm Ha b); auto.
  - unfold arr_copy. destruct (allocate_cases mem (asize src) a) as [(b & E)|(b & E)]; rewrite E; cbn [bind aresult].
    + pose proof (allocate_sized mem (asize src) a Hm Ha b (or_introl E)) as Hb.
      assert (Sb : asize b = asize src).
      { unfold arr_allocate in E. destruct (Nat.eqb_spec (asize a) (asize src)); [injection E as <-; assumption|].
        destruct (Nat.eqb_spec (asize src) 0) as [Z0|]; [injection E as <-; cbn; congruence|].
        destruct (mem (asize src)); [|discriminate]. injection E as <-. reflexivity. }
      destruct (adata src) as [l'|] eqn:D; [|cbn [aresult]; exact Hb].
      destruct (adata b) as [lb|] eqn:Db; cbn [aresult]; [|rewrite Db; discriminate].
      cbn. intros l H. injection H as <-. rewrite Sb. apply Hs. reflexivity.
    + apply (allocate_sized mem (asize src) a Hm Ha b). auto.
Qed.
Lemma run_sized ops : history_ok ops -> forall l, adata (run_array ops) = Some l -> length l = asize (run_array ops).
Proof.
  unfold run_array. assert (G : forall ops a, history_ok ops -> (forall l, adata a = Some l -> length l = asize a) ->
    forall l, adata (fold_left astep ops a) = Some l -> length l = asize (fold_left astep ops a)).
  { clear ops. induction ops as [|o t IH]; intros a H Ha; [exact Ha|]. cbn [fold_left]. apply IH.
    - intros o' Hin. apply H. right. exact Hin.
    - destruct (H o (or_introl eq_refl)). apply astep_sized; assumption. }
  intros H. apply G; [exact H|]. discriminate.
Qed.
(** Without failed allocations: no memory exactly when the size is 0. *)
Lemma astep_null a o : never_fails (op_mem o) -> (adata a = None -> asize a = 0%nat) ->
  adata (astep a o) = None -> asize (astep a o) = 0%nat.
Proof.
  intros Hm Ha.
  assert (A : forall mem n b, never_fails mem -> arr_allocate mem n a = Ok b -> adata b = None -> asize b = 0%nat).
  { intros mem n b Hn E. unfold arr_allocate in E. destruct (Nat.eqb (asize a) n); [injection E as <-; exact Ha|].
    destruct (Nat.eqb n 0); [injection E as <-; reflexivity|]. destruct (mem n); [|discriminate]. injection E as <-. discriminate. }
  assert (B : forall mem n, never_fails mem -> exists b, arr_allocate mem n a = Ok b).
  { intros mem n Hn. unfold arr_allocate. destruct (Nat.eqb (asize a) n); [eauto|]. destruct (Nat.eqb n 0); [eauto|].
    specialize (Hn n). destruct (mem n); [eauto|contradiction]. }
  destruct o as [mem v|mem n|mem src]; cbn [op_mem] in *; cbn [astep].
  - unfold arr_assign. destruct (B mem (length v) Hm) as (b & E). rewrite E. cbn [bind aresult].
    specialize (A _ _ _ Hm E). unfold arr_copyFrom. destruct (adata b) eqn:D; [|intros _; apply A; reflexivity].
    destruct (Nat.eqb (asize b) (length v)); [discriminate|rewrite D; discriminate].
  - unfold arr_resize. destruct (B mem n Hm) as (b & E). rewrite E. cbn [aresult]. apply (A _ _ _ Hm E).
  - unfold arr_copy. destruct (B mem (asize src) Hm) as (b & E). rewrite E. cbn [bind].
    specialize (A _ _ _ Hm E). destruct (adata src); cbn [aresult]; [|exact A].
    destruct (adata b) eqn:D; cbn [aresult]; [discriminate|intros _; apply A; reflexivity].
Qed.
Lemma run_null ops : (forall o, In o ops -> never_fails (op_mem o)) -> adata (run_array ops) = None -> asize (run_array ops) = 0%nat.
Proof.
  unfold run_array. assert (G : forall ops a, (forall o, In o ops -> never_fails (op_mem o)) -> (adata a = None -> asize a = 0%nat) ->
    adata (fold_left astep ops a) = None -> asize (fold_left astep ops a) = 0%nat).
  { clear ops. induction ops as [|o t IH]; intros a H Ha; [exact Ha|]. cbn [fold_left]. apply IH.
    - intros o' Hin. apply H. right. exact Hin.
    - apply astep_null; [apply H; left; reflexivity|exact Ha]. }
  intros H. apply G; [exact H|reflexivity].
Qed.

(** After an allocation for the array has failed, a vector of the old size is lost without an
    exception. *)
Theorem C143_lost mem v a : adata a = None -> asize a = length v -> arr_assign mem v a = Ok a /\ arr_get a = repeat 0 (length v).
Proof.
  intros D E. unfold arr_assign, arr_allocate. rewrite E, Nat.eqb_refl. cbn [bind]. unfold arr_copyFrom, arr_get. rewrite D, E. auto.
Qed.
Definition ten (n : nat) : option (list Z) := if Nat.leb n 10 then Some (repeat 9 n) else None.
Lemma ten_right : right_size ten.
Proof. intros n l. unfold ten. destruct (Nat.leb n 10); [|discriminate]. intros H. injection H as <-. apply repeat_length. Qed.
Theorem C143_assign_refuted : ~ C143_assign_claim.
Proof.
  intros H.
  destruct (H [AAssign ten [1; 2]; AResize ten 20] ten [3; 4] (mkArr None 2)) as [E _].
  - intros o [<-|[<-|[]]]; (split; [exact ten_right|exact I]).
  - exact ten_right.
  - reflexivity.
  - vm_compute in E. discriminate.
Qed.
Theorem C143_assign_partial ops mem v a : history_ok ops -> (forall o, In o ops -> never_fails (op_mem o)) -> right_size mem ->
  arr_assign mem v (run_array ops) = Ok a -> arr_get a = v /\ asize a = length v.
Proof.
  intros H Hn Hm. pose proof (run_null ops Hn) as R. set (a0 := run_array ops) in *. unfold arr_assign, arr_allocate.
  destruct (Nat.eqb_spec (asize a0) (length v)) as [E|N]; cbn [bind].
  - intros Ea. injection Ea as <-. unfold arr_copyFrom. destruct (adata a0) eqn:D.
    + rewrite E, Nat.eqb_refl. split; reflexivity.
    + specialize (R eq_refl). split; [|exact E]. unfold arr_get. rewrite D, R. destruct v; [reflexivity|]. cbn in E. lia.
  - destruct (Nat.eqb_spec (length v) 0) as [Z0|N0]; cbn [bind].
    + intros Ea. injection Ea as <-. destruct v; [|discriminate]. split; reflexivity.
    + destruct (mem (length v)); [|discriminate]. cbn [bind]. intros Ea. injection Ea as <-. unfold arr_copyFrom. cbn [adata asize].
      rewrite Nat.eqb_refl. split; reflexivity.
Qed.
Theorem C143_copy_refuted : ~ C143_copy_claim.
Proof.
  intros H. destruct (H [] [] (fun n => Some (repeat 9 n))) as (a & E & _).
  - intros o [].
  - intros o [].
  - intros n l E. injection E as <-. apply repeat_length.
  - intros n. discriminate.
  - discriminate.
Qed.
(** An array that is not empty is copied. *)
Theorem C143_copy_partial ops src l mem : history_ok ops -> (forall o, In o ops -> never_fails (op_mem o)) ->
  right_size mem -> never_fails mem -> adata src = Some l -> length l = asize src -> l <> [] ->
  exists a, arr_copy mem src (run_array ops) = Ok a /\ arr_get a = arr_get src /\ asize a = asize src.
Proof.
  intros H Hn Hm Hf D L Hl. pose proof (run_null ops Hn) as R. set (a0 := run_array ops) in *.
  assert (N0 : asize src <> 0%nat) by (rewrite <- L; destruct l; [contradiction|discriminate]).
  unfold arr_copy, arr_allocate. destruct (Nat.eqb_spec (asize a0) (asize src)) as [E|N]; cbn [bind].
  - rewrite D. destruct (adata a0) eqn:D0; [|specialize (R eq_refl); lia].
    eexists. split; [reflexivity|]. unfold arr_get. cbn. rewrite D. auto.
  - destruct (Nat.eqb_spec (asize src) 0); [lia|]. specialize (Hf (asize src)). destruct (mem (asize src)) eqn:Em; [|contradiction].
    cbn [bind]. rewrite D. cbn [adata]. eexists. split; [reflexivity|]. unfold arr_get. cbn. rewrite D. auto.
Qed.
(** An empty array is not: the exception comes after the memory of the target is gone. *)
Theorem C143_copy_of_empty mem a : exists b, arr_copy mem arr_new a = Throw b /\ asize b = 0%nat /\ (asize a <> 0%nat -> arr_get b = []).
Proof.
  unfold arr_copy, arr_allocate, arr_new. cbn [asize adata]. destruct (Nat.eqb_spec (asize a) 0) as [E|N]; cbn [bind].
  - exists a. split; [reflexivity|]. split; [exact E|]. intros H. contradiction.
  - eexists. split; [reflexivity|]. split; reflexivity.
Qed.
Example C143_case : let ops := [AAssign ten [1; 2]; AResize ten 4; AAssign ten [5; 6; 7]] in
  history_ok ops /\ run_array ops = mkArr (Some [5; 6; 7]) 3 /\
  (forall o, In o (map (fun v => AAssign (fun n => Some (repeat 9 n)) v) [[1]; [2; 3]]) -> never_fails (op_mem o)).
Proof.
  cbv zeta. split; [|split; [reflexivity|]].
  - intros o [<-|[<-|[<-|[]]]]; (split; [exact ten_right|exact I]).
  - intros o [<-|[<-|[]]] n; discriminate.
Qed.
Print Assumptions C143_lost.
Print Assumptions C143_assign_refuted.
Print Assumptions C143_assign_partial.
Print Assumptions C143_copy_refuted.
Print Assumptions C143_copy_partial.
Print Assumptions C143_copy_of_empty.

(** ** C144: streams and queues are made and destroyed once *)
Definition run_streams (ops : list (Z * qop)) : queues := fold_left sstep ops streams_new.
Definition run_queues (dev : Z) (ops : list qop) : queues := fold_left (qstep dev) ops (queues_new dev).

(** Every handle made so far is either held or destroyed, and only once. *)
Definition accounted (q : queues) : Prop :=
  0 <= qnext q /\
  Permutation (map hserial (qreleased q ++ qlist q)) (map Z.of_nat (seq 0 (Z.to_nat (qnext q)))).

Lemma create_serials n : forall dev next, map hserial (create n dev next) = map (fun k => next + Z.of_nat k) (seq 0 n).
Proof.
  induction n as [|n IH]; intros dev next; [reflexivity|]. cbn [create map seq]. rewrite IH, <- seq_shift, map_map.
  f_equal; [cbn; lia|]. apply map_ext. intros k. lia.
Qed.
Lemma create_length n : forall dev next, length (create n dev next) = n.
Proof. induction n as [|n IH]; intros; [reflexivity|]. cbn. rewrite IH. reflexivity. Qed.
Lemma add_accounted n dev q : accounted q -> accounted (add_queues n dev q).
Proof.
  intros [H0 H]. unfold accounted, add_queues. cbn [qnext qlist qreleased]. split; [lia|].
  rewrite app_assoc, map_app. rewrite create_serials. rewrite Z2Nat.inj_add, Nat2Z.id by lia. rewrite seq_app, (map_app Z.of_nat).
  apply Permutation_app; [exact H|]. cbn [Nat.add].
  assert (E : map (fun k => qnext q + Z.of_nat k) (seq 0 n) = map Z.of_nat (seq (Z.to_nat (qnext q)) n)).
  { rewrite <- (Nat.add_0_r (Z.to_nat (qnext q))) at 1. generalize 0%nat as s. induction n as [|n IH]; intros s; [reflexivity|].
    cbn [seq map]. f_equal; [lia|]. rewrite IH. f_equal. f_equal. lia. }
  rewrite E. apply Permutation_refl.
Qed.
Lemma drop_accounted n q : accounted q -> accounted (drop_queues n q).
Proof.
  intros [H0 H]. unfold accounted, drop_queues. cbn [qnext qlist qreleased]. split; [exact H0|].
  eapply Permutation_trans; [|exact H]. apply Permutation_map.
  eapply Permutation_trans; [apply Permutation_app; [apply Permutation_app; [apply Permutation_sym, Permutation_rev|apply Permutation_refl]|apply Permutation_refl]|].
  rewrite <- (firstn_skipn n (qlist q)) at 3. rewrite <- app_assoc.
  eapply Permutation_trans; [apply Permutation_app_comm|]. rewrite <- app_assoc. apply Permutation_refl.
Qed.
Lemma current_accounted i q : accounted q -> accounted (setCurrentId i q).
Proof. intros H. unfold setCurrentId. destruct (_ && _); exact H. Qed.
Lemma release_accounted q : accounted q -> accounted (release_all q) /\ qlist (release_all q) = [].
Proof.
  intros [H0 H]. split; [|reflexivity]. unfold accounted, release_all. cbn [qnext qlist qreleased]. split; [exact H0|].
  rewrite app_nil_r. eapply Permutation_trans; [|exact H]. apply Permutation_map.
  eapply Permutation_trans; [apply Permutation_app_comm|]. apply Permutation_app; [apply Permutation_refl|apply Permutation_sym, Permutation_rev].
Qed.
Lemma count_accounted dev n q : accounted q -> accounted (setStreamCount dev n q) /\ accounted (setQueueCount dev n q).
Proof.
  intros H. unfold setStreamCount, setQueueCount. split.
  - destruct (Nat.eqb _ _); [exact H|]. destruct (Nat.ltb _ _); [apply add_accounted|apply drop_accounted]; exact H.
  - destruct (Nat.ltb 255 n); (destruct (Nat.eqb _ _); [exact H|]); (destruct (Nat.ltb _ _); [apply add_accounted|apply drop_accounted]; exact H).
Qed.
Lemma streams_new_accounted : accounted streams_new.
Proof. split; [cbn; lia|apply Permutation_refl]. Qed.
Lemma run_streams_accounted ops : accounted (run_streams ops).
Proof.
  unfold run_streams. generalize streams_new_accounted. generalize streams_new.
  induction ops as [|[r [n|i]] t IH]; intros q H; [exact H| |]; cbn [fold_left]; apply IH; unfold sstep; cbn [snd fst].
  - apply count_accounted, H.
  - apply current_accounted, H.
Qed.
Lemma run_queues_accounted dev ops : accounted (run_queues dev ops).
Proof.
  unfold run_queues. assert (G : accounted (queues_new dev)) by (apply (count_accounted dev 1), streams_new_accounted).
  revert G. generalize (queues_new dev).
  induction ops as [|[n|i] t IH]; intros q H; [exact H| |]; cbn [fold_left]; apply IH; unfold qstep.
  - apply count_accounted, H.
  - apply current_accounted, H.
Qed.
(** At the end of a device each of the streams (queues) made for it, 0, 1, ..., has been
    destroyed, and none twice. *)
Definition each_destroyed_once (q : queues) : Prop :=
  NoDup (map hserial (qreleased q)) /\ forall k, In k (map hserial (qreleased q)) <-> 0 <= k < qnext q.
Lemma accounted_destroyed q : accounted q -> qlist q = [] -> each_destroyed_once q.
Proof.
  intros [H0 H] E. rewrite E, app_nil_r in H. split.
  - eapply Permutation_NoDup; [apply Permutation_sym, H|]. apply FinFun.Injective_map_NoDup; [|apply seq_NoDup].
    intros x y. lia.
  - intros k. split.
    + intros Hk. apply (Permutation_in _ H) in Hk. apply in_map_iff in Hk as (n & <- & Hn). apply in_seq in Hn. lia.
    + intros Hk. apply (Permutation_in _ (Permutation_sym H)). apply in_map_iff. exists (Z.to_nat k).
      split; [lia|]. apply in_seq. lia.
Qed.
Theorem C144_streams_destroyed_once ops : each_destroyed_once (release_all (run_streams ops)).
Proof. destruct (release_accounted _ (run_streams_accounted ops)). apply accounted_destroyed; assumption. Qed.
Theorem C144_queues_destroyed_once dev ops : each_destroyed_once (release_all (run_queues dev ops)).
Proof. destruct (release_accounted _ (run_queues_accounted dev ops)). apply accounted_destroyed; assumption. Qed.
(** A stream (queue) that is held has not been destroyed. *)
Lemma accounted_live q h : accounted q -> In h (qlist q) -> ~ In (hserial h) (map hserial (qreleased q)).
Proof.
  intros [H0 H] Hin Hr. rewrite map_app in H.
  assert (N : NoDup (map hserial (qreleased q) ++ map hserial (qlist q))).
  { eapply Permutation_NoDup; [apply Permutation_sym, H|]. apply FinFun.Injective_map_NoDup; [|apply seq_NoDup]. intros x y. lia. }
  apply in_map with (f := hserial) in Hin. apply in_split in Hr as (l1 & l2 & E). rewrite E in N.
  rewrite <- app_assoc in N. cbn in N. apply NoDup_remove_2 in N. apply N. rewrite app_assoc. apply in_or_app. right. exact Hin.
Qed.
Theorem C144_held_are_alive dev ops ops' h :
  (In h (qlist (run_streams ops)) -> ~ In (hserial h) (map hserial (qreleased (run_streams ops)))) /\
  (In h (qlist (run_queues dev ops')) -> ~ In (hserial h) (map hserial (qreleased (run_queues dev ops')))).
Proof. split; apply accounted_live; [apply run_streams_accounted|apply run_queues_accounted]. Qed.
(** The number asked for; OpenCL at most 255. *)
Lemma add_length n dev q : length (qlist (add_queues n dev q)) = (length (qlist q) + n)%nat.
Proof. cbn. rewrite app_length, create_length. reflexivity. Qed.
Lemma drop_length n q : (n <= length (qlist q))%nat -> length (qlist (drop_queues n q)) = n.
Proof. intros H. cbn. rewrite firstn_length. lia. Qed.
Theorem C144_stream_count dev n q : length (qlist (setStreamCount dev n q)) = n.
Proof.
  unfold setStreamCount. destruct (Nat.eqb_spec n (length (qlist q))) as [->|N]; [reflexivity|].
  destruct (Nat.ltb_spec (length (qlist q)) n); [rewrite add_length|rewrite drop_length]; lia.
Qed.
Theorem C144_queue_count dev n q : length (qlist (setQueueCount dev n q)) = Nat.min n 255.
Proof.
  assert (G : forall k, length (qlist (if Nat.eqb k (length (qlist q)) then q else
    if Nat.ltb (length (qlist q)) k then add_queues (k - length (qlist q)) dev q else drop_queues k q)) = k)
    by (intros k; apply (C144_stream_count dev k q)).
  unfold setQueueCount. rewrite G. destruct (Nat.ltb_spec 255 n); lia.
Qed.
(** Streams (queues) below the new number stay. *)
Theorem C144_kept dev n q i h : (i < n)%nat -> (i < 255)%nat -> nth_error (qlist q) i = Some h ->
  nth_error (qlist (setStreamCount dev n q)) i = Some h /\ nth_error (qlist (setQueueCount dev n q)) i = Some h.
Proof.
  assert (G : forall k, (i < k)%nat -> nth_error (qlist q) i = Some h ->
    nth_error (qlist (if Nat.eqb k (length (qlist q)) then q else
    if Nat.ltb (length (qlist q)) k then add_queues (k - length (qlist q)) dev q else drop_queues k q)) i = Some h).
  { intros k Hk E. destruct (Nat.eqb k _); [exact E|]. destruct (Nat.ltb _ k); cbn.
    - rewrite nth_error_app1; [exact E|]. apply nth_error_Some. congruence.
    - assert (Hi : (i < length (qlist q))%nat) by (apply nth_error_Some; congruence).
      rewrite <- (firstn_skipn k (qlist q)) in E. rewrite nth_error_app1 in E; [exact E|]. rewrite firstn_length. lia. }
  intros H1 H2 E. split; [apply G; assumption|]. unfold setQueueCount. destruct (Nat.ltb_spec 255 n); apply G; assumption.
Qed.
(** The current stream exists when there are streams at all, so getCudaStream is defined. *)
Definition current_ok (q : queues) : Prop := (qcurrent q < Nat.max 1 (length (qlist q)))%nat.
Lemma count_current dev n q : current_ok q -> current_ok (setStreamCount dev n q) /\ current_ok (setQueueCount dev n q).
Proof.
  assert (G : forall k, current_ok q -> current_ok (setStreamCount dev k q)).
  { intros k H. pose proof (C144_stream_count dev k q) as L. revert L. unfold setStreamCount.
    destruct (Nat.eqb_spec k (length (qlist q))); [intros _; exact H|].
    unfold current_ok in *. destruct (Nat.ltb_spec (length (qlist q)) k) as [Hl|Hl]; intros L; rewrite L; cbn [add_queues drop_queues qcurrent].
    - lia.
    - destruct (Nat.leb_spec k (qcurrent q)); lia. }
  intros H. split; [apply G, H|]. unfold setQueueCount. destruct (Nat.ltb 255 n); apply G, H.
Qed.
Lemma set_current_ok i q : current_ok q -> current_ok (setCurrentId i q).
Proof.
  intros H. unfold setCurrentId. destruct (negb _); cbn [andb]; [|exact H].
  destruct (Nat.ltb_spec i (length (qlist q))); [|exact H]. unfold current_ok. cbn [qcurrent qlist]. lia.
Qed.
Lemma run_streams_current ops : current_ok (run_streams ops).
Proof.
  unfold run_streams. assert (G : current_ok streams_new) by (unfold current_ok; cbn; lia). revert G. generalize streams_new.
  induction ops as [|[r [n|i]] t IH]; intros q H; [exact H| |]; cbn [fold_left]; apply IH; unfold sstep; cbn [snd fst].
  - apply count_current, H.
  - apply set_current_ok, H.
Qed.
Lemma run_queues_current dev ops : current_ok (run_queues dev ops).
Proof.
  unfold run_queues. assert (G : current_ok (queues_new dev)) by (unfold current_ok; cbn; lia). revert G. generalize (queues_new dev).
  induction ops as [|[n|i] t IH]; intros q H; [exact H| |]; cbn [fold_left]; apply IH; unfold qstep.
  - apply count_current, H.
  - apply set_current_ok, H.
Qed.
Lemma current_nonempty {E} q : current_ok q -> qlist q <> [] -> exists h, @current E q = Ok h /\ In h (qlist q).
Proof.
  intros H N. assert (L : (qcurrent q < length (qlist q))%nat).
  { unfold current_ok in H. destruct (qlist q); [contradiction|]. cbn in *. lia. }
  unfold current. destruct (nth_error (qlist q) (qcurrent q)) as [h|] eqn:Eh.
  - exists h. split; [reflexivity|]. apply nth_error_In in Eh. exact Eh.
  - apply nth_error_None in Eh. lia.
Qed.
Theorem C144_stream_for_launch (E : Type) ops :
  (exists h, @getCudaStream E (run_streams ops) = Ok (Some h) /\ In h (qlist (run_streams ops))) \/
  (@getCudaStream E (run_streams ops) = Ok None /\ qlist (run_streams ops) = []).
Proof.
  pose proof (run_streams_current ops) as H. unfold getCudaStream. destruct (qlist (run_streams ops)) as [|h t] eqn:Eq.
  - right. split; reflexivity.
  - left. destruct (@current_nonempty E (run_streams ops) H) as (h' & E' & Hin); [rewrite Eq; discriminate|].
    exists h'. rewrite Eq in Hin. cbn [length Nat.ltb Nat.leb]. rewrite E'. split; [reflexivity|exact Hin].
Qed.
(** setCurrentStreamId and setCurrentQueueId: an existing one is taken, another is ignored. *)
Theorem C144_set_current q i : ((i < length (qlist q))%nat -> qcurrent (setCurrentId i q) = i) /\
  ((length (qlist q) <= i)%nat -> setCurrentId i q = q).
Proof.
  unfold setCurrentId. split; intros H.
  - destruct (Nat.eqb_spec (qcurrent q) i) as [E|N]; [exact E|]. destruct (Nat.ltb_spec i (length (qlist q))); [reflexivity|lia].
  - destruct (Nat.ltb_spec i (length (qlist q))); [lia|]. rewrite andb_false_r. reflexivity.
Qed.
Example C144_case : let q := run_streams [(0, QCount 3); (0, QCurrent 2); (1, QCount 5); (0, QCount 1); (0, QCount 2)] in
  map hserial (qlist q) = [0; 5] /\ qcurrent q = 0%nat /\ map hserial (qreleased q) = [4; 3; 2; 1] /\
  map hserial (qreleased (release_all q)) = [5; 0; 4; 3; 2; 1] /\
  length (qlist (run_queues 7 [QCount 1000])) = 255%nat.
Proof. vm_compute. auto. Qed.
Print Assumptions C144_streams_destroyed_once.
Print Assumptions C144_queues_destroyed_once.
Print Assumptions C144_held_are_alive.
Print Assumptions C144_stream_count.
Print Assumptions C144_queue_count.
Print Assumptions C144_kept.
Print Assumptions C144_stream_for_launch.
Print Assumptions C144_set_current.

(** ** C145: the current queue, and the device of a stream *)
Definition C145_queue_claim : Prop := forall (E : Type) dev ops, exists h, @current E (run_queues dev ops) = Ok h.
(** The streams of the device [dev] are streams on that device.  The manager lets any of its
    devices be used, whichever is the active one. *)
Definition C145_stream_claim : Prop := forall dev ops h, In h (qlist (run_streams ops)) -> hdevice h = dev.
(** With no queues, queue() reads outside the vector. *)
Theorem C145_no_queue (E : Type) dev ops : @current E (fold_left (qstep dev) [QCount 0] (run_queues dev ops)) = UB.
Proof.
  cbn [fold_left qstep]. unfold current. pose proof (C144_queue_count dev 0 (run_queues dev ops)) as L. cbn [Nat.min] in L.
  destruct (qlist (setQueueCount dev 0 (run_queues dev ops))); [|discriminate].
  destruct (qcurrent (setQueueCount dev 0 (run_queues dev ops))); reflexivity.
Qed.
Theorem C145_queue_refuted : ~ C145_queue_claim.
Proof. intros H. destruct (H unit 0 [QCount 0]) as (h & E). pose proof (C145_no_queue unit 0 []) as U. unfold run_queues in *. cbn [fold_left] in *. rewrite E in U. discriminate. Qed.
Lemma run_queues_device dev ops h : In h (qlist (run_queues dev ops)) -> hdevice h = dev.
Proof.
  unfold run_queues. revert h.
  assert (C : forall n next h, In h (create n dev next) -> hdevice h = dev).
  { induction n as [|n IH]; intros next h; [intros []|]. cbn. intros [<-|H]; [reflexivity|apply (IH _ _ H)]. }
  assert (S : forall k q, (forall h, In h (qlist q) -> hdevice h = dev) -> forall h, In h (qlist (setStreamCount dev k q)) -> hdevice h = dev).
  { intros k q Hq h. unfold setStreamCount. destruct (Nat.eqb _ _); [apply Hq|]. destruct (Nat.ltb _ _); cbn.
    - intros H. apply in_app_iff in H as [H|H]; [apply Hq, H|apply (C _ _ _ H)].
    - intros H. apply Hq. rewrite <- (firstn_skipn k (qlist q)). apply in_or_app. left. exact H. }
  assert (G : forall q, (forall h, In h (qlist q) -> hdevice h = dev) -> forall h, In h (qlist (fold_left (qstep dev) ops q)) -> hdevice h = dev).
  { induction ops as [|[n|i] t IH]; intros q Hq; [exact Hq| |]; cbn [fold_left]; apply IH; unfold qstep.
    - unfold setQueueCount. destruct (Nat.ltb 255 n); apply S, Hq.
    - unfold setCurrentId. destruct (_ && _); exact Hq. }
  apply G. intros h [<-|[]]. reflexivity.
Qed.
(** As long as the number of queues is not set to 0 the current queue exists and belongs to
    the device. *)
Theorem C145_queue_partial (E : Type) dev ops : (forall n, In (QCount n) ops -> n <> 0%nat) ->
  exists h, @current E (run_queues dev ops) = Ok h /\ hdevice h = dev /\ (1 <= length (qlist (run_queues dev ops)) <= 255)%nat.
Proof.
  intros H. assert (L : (1 <= length (qlist (run_queues dev ops)) <= 255)%nat).
  { unfold run_queues. assert (G : (1 <= length (qlist (queues_new dev)) <= 255)%nat) by (cbn; lia). revert G. generalize (queues_new dev).
    induction ops as [|[n|i] t IH]; intros q Hq; [exact Hq| |]; cbn [fold_left]; (apply IH; [intros k Hk; apply H; right; exact Hk|]); unfold qstep.
    - rewrite C144_queue_count. specialize (H n (or_introl eq_refl)). lia.
    - unfold setCurrentId. destruct (_ && _); exact Hq. }
  destruct (@current_nonempty E (run_queues dev ops) (run_queues_current dev ops)) as (h & Eh & Hin).
  { destruct (qlist _); [cbn in L; lia|discriminate]. }
  exists h. split; [exact Eh|]. split; [apply (run_queues_device dev ops h Hin)|exact L].
Qed.
(** Device 1 gets its streams while device 0 is the active one. *)
Theorem C145_stream_refuted : ~ C145_stream_claim.
Proof. intros H. specialize (H 1 [(0, QCount 1)] (mkH 0 0) (or_introl eq_refl)). discriminate. Qed.
(** Right when the device is the active one whenever its number of streams is set. *)
Theorem C145_stream_partial dev ops h : (forall r n, In (r, QCount n) ops -> r = dev) ->
  In h (qlist (run_streams ops)) -> hdevice h = dev.
Proof.
  intros Ho. unfold run_streams. revert h.
  assert (C : forall n next h, In h (create n dev next) -> hdevice h = dev).
  { induction n as [|n IH]; intros next h; [intros []|]. cbn. intros [<-|H]; [reflexivity|apply (IH _ _ H)]. }
  assert (G : forall q, (forall h, In h (qlist q) -> hdevice h = dev) -> forall h, In h (qlist (fold_left sstep ops q)) -> hdevice h = dev).
  { induction ops as [|[r [n|i]] t IH]; intros q Hq; [exact Hq| |]; cbn [fold_left];
      (apply IH; [intros r' n' Hin; apply (Ho r' n'); right; exact Hin|]); unfold sstep; cbn [snd fst].
    - assert (r = dev) by (apply (Ho r n); left; reflexivity). subst r.
      intros h. unfold setStreamCount. destruct (Nat.eqb _ _); [apply Hq|]. destruct (Nat.ltb _ _); cbn.
      + intros H. apply in_app_iff in H as [H|H]; [apply Hq, H|apply (C _ _ _ H)].
      + intros H. apply Hq. rewrite <- (firstn_skipn n (qlist q)). apply in_or_app. left. exact H.
    - unfold setCurrentId. destruct (_ && _); exact Hq. }
  apply G. intros h [].
Qed.
Example C145_case : (exists h, @current unit (run_queues 7 [QCount 4; QCurrent 3; QCount 2]) = Ok h /\ hdevice h = 7) /\
  map hdevice (qlist (run_streams [(1, QCount 3); (1, QCurrent 2); (1, QCount 2)])) = [1; 1].
Proof. split; [eexists; split; reflexivity|reflexivity]. Qed.
Print Assumptions C145_no_queue.
Print Assumptions C145_queue_refuted.
Print Assumptions C145_queue_partial.
Print Assumptions C145_stream_refuted.
Print Assumptions C145_stream_partial.

(** ** C146: device( id ) gives the device that was initialised *)

(** Has the device [id] been initialised and not closed since?  [n] devices are supported. *)
Definition open_after (n : Z) (ops : list mop) (id : Z) : bool :=
  fold_left (fun b o =>
    match o with
    | MInit k => if (k =? id) && (0 <=? id) && (id <? n) then true else b
    | MInitAll => if (0 <=? id) && (id <? n) then true else b
    | MClose k => if k =? id then false else b
    | MCloseAll => false
    | MActive _ => b
    end) ops false.
Definition run_cuda (n : Z) (ops : list mop) : cuda_mgr := fold_left cm_step ops (cm_new n).

Lemma is_open_In id l : is_open id l = true <-> In id l.
Proof.
  unfold is_open. rewrite existsb_exists. split.
  - intros (x & Hx & E). apply Z.eqb_eq in E. subst x. exact Hx.
  - intros H. exists id. split; [exact H|apply Z.eqb_refl].
Qed.
Lemma is_open_false id l : is_open id l = false <-> ~ In id l.
Proof. rewrite <- is_open_In. destruct (is_open id l); split; congruence. Qed.
Lemma remove_first_In id l x : NoDup l -> (In x (remove_first id l) <-> In x l /\ x <> id).
Proof.
  induction l as [|y l IH]; intros N; [cbn; tauto|]. inversion N as [|y' l' Hy Hl]; subst. cbn [remove_first].
  destruct (Z.eqb_spec id y) as [->|Hne].
  - split.
    + intros H. split; [right; exact H|congruence].
    + intros [[->|H] H2]; [contradiction|exact H].
  - cbn [In]. rewrite IH by exact Hl. split.
    + intros [->|[H1 H2]]; [split; [left; reflexivity|congruence]|split; [right; exact H1|exact H2]].
    + intros [[H1|H1] H2]; [left; exact H1|right; split; assumption].
Qed.
Lemma remove_first_NoDup id l : NoDup l -> NoDup (remove_first id l).
Proof.
  induction l as [|y l IH]; intros N; [constructor|]. inversion N as [|y' l' Hy Hl]; subst. cbn [remove_first].
  destruct (Z.eqb id y); [exact Hl|]. constructor; [|apply IH, Hl]. rewrite remove_first_In by exact Hl. tauto.
Qed.
Lemma find_In id l : In id l -> find (Z.eqb id) l = Some id.
Proof.
  induction l as [|y l IH]; [intros []|]. cbn [find]. destruct (Z.eqb_spec id y) as [->|N]; [reflexivity|].
  intros [E|H]; [congruence|apply IH, H].
Qed.
Lemma find_not_In id l : ~ In id l -> find (Z.eqb id) l = None.
Proof.
  induction l as [|y l IH]; [reflexivity|]. cbn [find In]. destruct (Z.eqb_spec id y) as [->|N]; [intros H; destruct H; auto|].
  intros H. apply IH. tauto.
Qed.
Lemma ids_In n x : In x (ids n) <-> 0 <= x < n.
Proof.
  unfold ids. rewrite in_map_iff. split.
  - intros (k & <- & Hk). apply in_seq in Hk. lia.
  - intros H. exists (Z.to_nat x). split; [lia|]. apply in_seq. lia.
Qed.
Lemma NoDup_snoc {A} (x : A) l : NoDup l -> ~ In x l -> NoDup (l ++ [x]).
Proof.
  intros N H. apply NoDup_rev in N. rewrite <- (rev_involutive (l ++ [x])). apply NoDup_rev. rewrite rev_app_distr. cbn.
  constructor; [rewrite <- in_rev; exact H|exact N].
Qed.
(** The devices held by the manager are those open. *)
Record cm_inv (n : Z) (ops : list mop) (m : cuda_mgr) : Prop := mkCmInv {
  cmi_sup : cmSupported m = n;
  cmi_nodup : NoDup (cmDevices m);
  cmi_open : forall id, In id (cmDevices m) <-> open_after n ops id = true
}.
Lemma cm_initialize_ok m id : NoDup (cmDevices m) -> exists m', keep (cm_initialize m id) m = m' /\ cmSupported m' = cmSupported m /\
  NoDup (cmDevices m') /\ (forall x, In x (cmDevices m') <-> In x (cmDevices m) \/ (x = id /\ 0 <= id < cmSupported m)) /\
  cmDefault m' = cmDefault m.
Proof.
  intros N. eexists. split; [reflexivity|]. unfold cm_initialize.
  destruct (Z.ltb_spec id 0); [cbn; split; [reflexivity|split; [exact N|split; [intros x; split; [tauto|intros [?|?]; [assumption|lia]]|reflexivity]]]|].
  destruct (Z.leb_spec (cmSupported m) id); [cbn; split; [reflexivity|split; [exact N|split; [intros x; split; [tauto|intros [?|?]; [assumption|lia]]|reflexivity]]]|].
  cbn [orb]. destruct (is_open id (cmDevices m)) eqn:O; cbn [keep cmSupported cmDevices cmDefault].
  - apply is_open_In in O. split; [reflexivity|]. split; [exact N|]. split; [|reflexivity].
    intros x. split; [tauto|]. intros [?|[-> _]]; assumption.
  - apply is_open_false in O. split; [reflexivity|]. split; [apply NoDup_snoc; assumption|]. split; [|reflexivity].
    intros x. rewrite in_app_iff. cbn [In]. split; [intros [H1|[->|[]]]; [tauto|right; lia]|intros [H1|[-> _]]; tauto].
Qed.
Lemma cm_initialize_res m id : 0 <= id < cmSupported m -> exists m', cm_initialize m id = Ok m'.
Proof.
  intros H. unfold cm_initialize. destruct (Z.ltb_spec id 0); [lia|]. destruct (Z.leb_spec (cmSupported m) id); [lia|].
  cbn [orb]. destruct (is_open id (cmDevices m)); eauto.
Qed.
Lemma cm_each_ok l : forall m, NoDup (cmDevices m) -> (forall x, In x l -> 0 <= x < cmSupported m) ->
  exists m', each cm_initialize l m = Ok m' /\ cmSupported m' = cmSupported m /\ NoDup (cmDevices m') /\
    (forall x, In x (cmDevices m') <-> In x (cmDevices m) \/ In x l) /\ cmDefault m' = cmDefault m.
Proof.
  induction l as [|id l IH]; intros m N H.
  { exists m. cbn. split; [reflexivity|]. split; [reflexivity|]. split; [exact N|]. split; [intros x; tauto|reflexivity]. }
  assert (Hid : 0 <= id < cmSupported m) by (apply H; left; reflexivity).
  destruct (cm_initialize_res m id Hid) as (m1 & E1). destruct (cm_initialize_ok m id N) as (m1' & E1' & S1 & N1 & O1 & D1).
  rewrite E1 in E1'. cbn in E1'. subst m1'.
  destruct (IH m1 N1) as (m2 & E2 & S2 & N2 & O2 & D2).
  { intros x Hx. rewrite S1. apply H. right. exact Hx. }
  exists m2. cbn [each]. rewrite E1. cbn [bind]. split; [exact E2|]. split; [congruence|]. split; [exact N2|]. split; [|congruence].
  intros x. rewrite O2, O1. cbn [In]. split; [intros [[?|[-> _]]|?]; auto|intros [?|[<-|?]]; auto].
Qed.
Lemma fold_active l : forall m, cmSupported (fold_left cm_set_active l m) = cmSupported m.
Proof. induction l as [|x l IH]; intros m; [reflexivity|]. cbn. rewrite IH. reflexivity. Qed.
Lemma open_after_snoc n ops o id : open_after n (ops ++ [o]) id =
  match o with
  | MInit k => if (k =? id) && (0 <=? id) && (id <? n) then true else open_after n ops id
  | MInitAll => if (0 <=? id) && (id <? n) then true else open_after n ops id
  | MClose k => if k =? id then false else open_after n ops id
  | MCloseAll => false
  | MActive _ => open_after n ops id
  end.
Proof. unfold open_after. rewrite fold_left_app. reflexivity. Qed.
Lemma open_after_range n ops id : open_after n ops id = true -> 0 <= id < n.
Proof.
  induction ops as [|o ops IH] using rev_ind; [discriminate|]. rewrite open_after_snoc.
  destruct (Z.leb_spec 0 id), (Z.ltb_spec id n); try lia;
    destruct o as [k| |k| |k]; rewrite ?andb_false_r; cbn [andb]; try exact IH; try discriminate;
    (destruct (k =? id); [discriminate|exact IH]).
Qed.
Lemma cm_step_inv n ops m o : cm_inv n ops m -> cm_inv n (ops ++ [o]) (cm_step m o).
Proof.
  intros [S N O]. destruct o as [k| |k| |k]; cbn [cm_step].
  - destruct (cm_initialize_ok m k N) as (m' & -> & S' & N' & O' & _). constructor; [congruence|exact N'|].
    intros id. rewrite O', open_after_snoc, O, S.
    destruct (Z.eqb_spec k id), (Z.leb_spec 0 id), (Z.ltb_spec id n); cbn [andb]; split; try tauto; try (intros _; right; lia);
      intros [?|[? ?]]; try assumption; lia.
  - destruct (cm_each_ok (ids (cmSupported m)) m N) as (m' & E & S' & N' & O' & _); [intros x Hx; apply ids_In, Hx|].
    unfold cm_initialize_all. rewrite E. cbn [keep]. constructor; [congruence|exact N'|].
    intros id. rewrite O', open_after_snoc, O, ids_In, S.
    destruct (Z.leb_spec 0 id), (Z.ltb_spec id n); cbn [andb]; split; try tauto; try (intros; right; lia); intros [?|?]; try assumption; lia.
  - unfold cm_close. destruct (Z.ltb_spec k 0); [|destruct (Z.leb_spec (cmSupported m) k)]; cbn [orb keep].
    + constructor; [exact S|exact N|]. intros id. rewrite open_after_snoc, O. destruct (Z.eqb_spec k id) as [->|]; [|tauto].
      split; [|discriminate]. intros H1. apply open_after_range in H1. lia.
    + constructor; [exact S|exact N|]. intros id. rewrite open_after_snoc, O. destruct (Z.eqb_spec k id) as [->|]; [|tauto].
      split; [|discriminate]. intros H1. apply open_after_range in H1. lia.
    + destruct (is_open k (cmDevices m)) eqn:Op; cbn [keep cm_set_active cmSupported cmDevices].
      * constructor; [exact S|apply remove_first_NoDup, N|]. intros id. cbn [cmDevices]. rewrite remove_first_In, open_after_snoc, O by exact N.
        destruct (Z.eqb_spec k id) as [->|]; [split; [intros [_ H1]; congruence|discriminate]|]. split; [tauto|]. intros H1. split; [exact H1|congruence].
      * apply is_open_false in Op. constructor; [exact S|exact N|]. intros id. rewrite open_after_snoc.
        destruct (Z.eqb_spec k id) as [->|]; [|apply O]. split; [tauto|discriminate].
  - unfold cm_close_all. constructor; cbn [cmSupported cmDevices].
    + rewrite fold_active. exact S.
    + constructor.
    + intros id. rewrite open_after_snoc. split; [intros []|discriminate].
  - unfold cm_set_active_device. destruct (is_open k (cmDevices m)); cbn [keep cm_set_active]; constructor; cbn [cmSupported cmDevices]; auto;
      intros id; rewrite open_after_snoc; apply O.
Qed.
Lemma run_cuda_inv n ops : cm_inv n ops (run_cuda n ops).
Proof.
  unfold run_cuda. induction ops as [|o ops IH] using rev_ind.
  - constructor; [reflexivity|constructor|]. intros id. cbn. split; [intros []|discriminate].
  - rewrite fold_left_app. cbn [fold_left]. apply cm_step_inv, IH.
Qed.
Theorem C146_cuda_device n ops id :
  cm_device (run_cuda n ops) id = if open_after n ops id then Ok id else Throw (run_cuda n ops).
Proof.
  destruct (run_cuda_inv n ops) as [S N O]. unfold cm_device.
  assert (E : open_after n ops id = true -> In id (cmDevices (run_cuda n ops))) by apply O.
  assert (E' : open_after n ops id = false -> ~ In id (cmDevices (run_cuda n ops))) by (rewrite O; congruence).
  destruct (open_after n ops id).
  - rewrite (find_In id) by auto. specialize (E eq_refl). destruct (cmDevices (run_cuda n ops)); [destruct E|reflexivity].
  - rewrite (find_not_In id) by auto. destruct (cmDevices (run_cuda n ops)); reflexivity.
Qed.
(** deviceCount(): each open device is counted once. *)
Theorem C146_cuda_count n ops : length (cmDevices (run_cuda n ops)) = length (filter (open_after n ops) (ids n)).
Proof.
  destruct (run_cuda_inv n ops) as [S N O]. apply Permutation_length. apply NoDup_Permutation; [exact N| |].
  - apply NoDup_filter. unfold ids. apply FinFun.Injective_map_NoDup; [intros x y; lia|apply seq_NoDup].
  - intros x. rewrite filter_In, O, ids_In. split; [|tauto]. intros H. split; [apply (open_after_range n ops), H|exact H].
Qed.

(** The OpenCL manager.  [sup]: identifiers of the devices of the system.  Exceptions are
    caught, undefined behaviour is not. *)
Fixpoint run_opencl (m : cl_mgr) (ops : list mop) : res cl_mgr cl_mgr :=
  match ops with
  | [] => Ok m
  | o :: t => match clm_step m o with Ok m' | Throw m' => run_opencl m' t | r => r end
  end.
Definition cl_new (sup : list Z) : cl_mgr := mkClm sup [] 0.
Definition C146_opencl_claim : Prop := forall sup ops i, NoDup sup -> 0 <= i ->
  (forall o, In o ops -> match o with MInit k | MClose k | MActive k => 0 <= k | _ => True end) ->
  exists m, run_opencl (cl_new sup) ops = Ok m /\
    clm_device m i = if open_after (Z.of_nat (length sup)) ops i then Ok (nth (Z.to_nat i) sup 0) else Throw m.
(** device( 1 ) with one device in the system, which is open: an access outside the vector,
    where a closed manager throws. *)
Theorem C146_opencl_outside m i : clDevices m <> [] -> Z.of_nat (length (clSupported m)) <= i ->
  clm_device m i = UB /\ clm_set_active m i = UB.
Proof.
  intros Hd Hi. unfold clm_device, clm_set_active. destruct (clDevices m); [contradiction|].
  unfold supported. destruct (Z.ltb_spec i (Z.of_nat (length (clSupported m)))); [lia|]. rewrite andb_false_r. split; reflexivity.
Qed.
Theorem C146_opencl_refuted : ~ C146_opencl_claim.
Proof.
  intros H. destruct (H [40] [MInit 0] 1) as (m & E & D).
  - repeat constructor; intros [].
  - lia.
  - intros o [<-|[]]. lia.
  - injection E as <-. discriminate.
Qed.
(** Right for ids of the system. *)
Definition in_system (n : Z) (o : mop) : Prop :=
  match o with MInit k | MClose k => 0 <= k | MActive k => 0 <= k < n | _ => True end.
Record clm_inv (sup : list Z) (ops : list mop) (m : cl_mgr) : Prop := mkClmInv {
  cli_sup : clSupported m = sup;
  cli_nodup : NoDup (clDevices m);
  cli_from : forall d, In d (clDevices m) -> In d sup;
  cli_open : forall i, 0 <= i < Z.of_nat (length sup) ->
    (In (nth (Z.to_nat i) sup 0) (clDevices m) <-> open_after (Z.of_nat (length sup)) ops i = true)
}.
Lemma supported_ok {E} m i : 0 <= i < Z.of_nat (length (clSupported m)) -> @supported E m i = Ok (nth (Z.to_nat i) (clSupported m) 0).
Proof.
  intros H. unfold supported. destruct (Z.leb_spec 0 i); [|lia]. destruct (Z.ltb_spec i (Z.of_nat (length (clSupported m)))); [|lia]. reflexivity.
Qed.
Lemma nth_same sup i j : NoDup sup -> 0 <= i < Z.of_nat (length sup) -> 0 <= j < Z.of_nat (length sup) ->
  nth (Z.to_nat i) sup 0 = nth (Z.to_nat j) sup 0 -> i = j.
Proof.
  intros N Hi Hj E. rewrite (NoDup_nth sup 0) in N. specialize (N (Z.to_nat i) (Z.to_nat j)). lia.
Qed.
Lemma clm_initialize_ok m i : NoDup (clDevices m) -> 0 <= i < Z.of_nat (length (clSupported m)) ->
  exists m', clm_initialize m i = Ok m' /\ clSupported m' = clSupported m /\ NoDup (clDevices m') /\
    (forall x, In x (clDevices m') <-> In x (clDevices m) \/ x = nth (Z.to_nat i) (clSupported m) 0) /\ clDefault m' = clDefault m.
Proof.
  intros N Hi. unfold clm_initialize. destruct (Z.ltb_spec i (Z.of_nat (length (clSupported m)))); [|lia].
  rewrite supported_ok by exact Hi. cbn [bind]. set (id := nth (Z.to_nat i) (clSupported m) 0).
  destruct (is_open id (clDevices m)) eqn:O.
  - apply is_open_In in O. exists m. split; [reflexivity|]. split; [reflexivity|]. split; [exact N|]. split; [|reflexivity].
    intros x. split; [tauto|]. intros [?| ->]; assumption.
  - apply is_open_false in O. eexists. split; [reflexivity|]. cbn. split; [reflexivity|]. split; [apply NoDup_snoc; assumption|].
    split; [|reflexivity]. intros x. rewrite in_app_iff. cbn [In]. split; [intros [?|[->|[]]]; auto|intros [?| ->]; auto].
Qed.
Lemma clm_each_ok l : forall m, NoDup (clDevices m) -> (forall x, In x l -> 0 <= x < Z.of_nat (length (clSupported m))) ->
  exists m', each clm_initialize l m = Ok m' /\ clSupported m' = clSupported m /\ NoDup (clDevices m') /\
    (forall x, In x (clDevices m') <-> In x (clDevices m) \/ exists i, In i l /\ x = nth (Z.to_nat i) (clSupported m) 0) /\
    clDefault m' = clDefault m.
Proof.
  induction l as [|i l IH]; intros m N H.
  { exists m. cbn. split; [reflexivity|]. split; [reflexivity|]. split; [exact N|]. split; [|reflexivity].
    intros x. split; [tauto|]. intros [?|(? & [] & _)]. assumption. }
  destruct (clm_initialize_ok m i N) as (m1 & E1 & S1 & N1 & O1 & D1); [apply H; left; reflexivity|].
  destruct (IH m1 N1) as (m2 & E2 & S2 & N2 & O2 & D2).
  { intros x Hx. rewrite S1. apply H. right. exact Hx. }
  exists m2. cbn [each]. rewrite E1. cbn [bind]. split; [exact E2|]. split; [congruence|]. split; [exact N2|]. split; [|congruence].
  intros x. rewrite O2, O1, S1. cbn [In]. split.
  - intros [[?| ->]|(j & Hj & ->)]; [tauto|right; exists i; auto|right; exists j; auto].
  - intros [?|(j & [<-|Hj] & ->)]; [tauto|tauto|right; exists j; auto].
Qed.
Lemma clm_step_inv sup ops m o : NoDup sup -> clm_inv sup ops m -> in_system (Z.of_nat (length sup)) o ->
  exists m', (clm_step m o = Ok m' \/ clm_step m o = Throw m') /\ clm_inv sup (ops ++ [o]) m'.
Proof.
  intros Ns [S N F O] Ho. destruct o as [k| |k| |k]; cbn [clm_step in_system] in *.
  - destruct (Z.ltb_spec k (Z.of_nat (length sup))) as [Hk|Hk].
    + destruct (clm_initialize_ok m k N) as (m' & E & S' & N' & O' & _); [rewrite S; lia|].
      exists m'. split; [left; exact E|]. constructor; [congruence|exact N'| |].
      * intros d Hd. apply O' in Hd as [Hd| ->]; [apply F, Hd|]. rewrite S. apply nth_In. lia.
      * intros i Hi. rewrite O', S, open_after_snoc, O by exact Hi.
        destruct (Z.leb_spec 0 i); [|lia]. destruct (Z.ltb_spec i (Z.of_nat (length sup))); [|lia]. rewrite !andb_true_r.
        destruct (Z.eqb_spec k i) as [->|Nk]; [tauto|]. split; [|tauto]. intros [?|E']; [assumption|].
        apply nth_same in E'; try assumption; lia.
    + exists m. split; [right; unfold clm_initialize; rewrite S; destruct (Z.ltb_spec k (Z.of_nat (length sup))); [lia|reflexivity]|].
      constructor; auto. intros i Hi. rewrite open_after_snoc, O by exact Hi. destruct (Z.eqb_spec k i); [lia|]. tauto.
  - destruct (clm_each_ok (ids (Z.of_nat (length sup))) m N) as (m' & E & S' & N' & O' & _).
    { intros x Hx. rewrite S. apply ids_In, Hx. }
    exists m'. split; [left; unfold clm_initialize_all; rewrite S; exact E|]. constructor; [congruence|exact N'| |].
    + intros d Hd. apply O' in Hd as [Hd|(i & Hi & ->)]; [apply F, Hd|]. rewrite S. apply nth_In. apply ids_In in Hi. lia.
    + intros i Hi. rewrite O', open_after_snoc. destruct (Z.leb_spec 0 i); [|lia]. destruct (Z.ltb_spec i (Z.of_nat (length sup))); [|lia].
      cbn [andb]. split; [reflexivity|]. intros _. right. exists i. split; [apply ids_In; exact Hi|rewrite S; reflexivity].
  - destruct (Z.ltb_spec k (Z.of_nat (length sup))) as [Hk|Hk].
    + eexists. split; [left; unfold clm_close; rewrite S; destruct (Z.ltb_spec k (Z.of_nat (length sup))); [|lia]; rewrite supported_ok by (rewrite S; lia); reflexivity|].
      rewrite S. constructor; cbn [clSupported clDevices]; [reflexivity|apply remove_first_NoDup, N| |].
      * intros d Hd. apply remove_first_In in Hd as [Hd _]; [apply F, Hd|exact N].
      * intros i Hi. rewrite remove_first_In, open_after_snoc by exact N. rewrite O by exact Hi.
        destruct (Z.eqb_spec k i) as [->|Nk]; [split; [tauto|discriminate]|]. split; [tauto|]. intros H1. split; [exact H1|].
        intros E'. apply nth_same in E'; try assumption; lia.
    + exists m. split; [right; unfold clm_close; rewrite S; destruct (Z.ltb_spec k (Z.of_nat (length sup))); [lia|reflexivity]|].
      constructor; auto. intros i Hi. rewrite open_after_snoc, O by exact Hi. destruct (Z.eqb_spec k i); [lia|]. tauto.
  - eexists. split; [left; reflexivity|]. constructor; cbn; [exact S|constructor|intros d []|].
    intros i Hi. rewrite open_after_snoc. split; [intros []|discriminate].
  - assert (I' : forall d, clm_inv sup (ops ++ [MActive k]) (mkClm (clSupported m) (clDevices m) d)).
    { intros d. constructor; cbn; auto. intros i Hi. rewrite open_after_snoc. apply O, Hi. }
    unfold clm_set_active. destruct (clDevices m) as [|d0 dt] eqn:Ed.
    + exists m. split; [right; reflexivity|]. specialize (I' (clDefault m)). rewrite <- Ed in I'. destruct m. exact I'.
    + rewrite supported_ok by (rewrite S; lia). cbn [bind]. destruct (is_open _ (d0 :: dt)).
      * eexists. split; [left; reflexivity|]. apply I'.
      * exists m. split; [right; reflexivity|]. specialize (I' (clDefault m)). rewrite <- Ed in I'. destruct m. exact I'.
Qed.
Lemma run_opencl_inv sup : NoDup sup -> forall ops pre m, (forall o, In o ops -> in_system (Z.of_nat (length sup)) o) ->
  clm_inv sup pre m -> exists m', run_opencl m ops = Ok m' /\ clm_inv sup (pre ++ ops) m'.
Proof.
  intros Ns. induction ops as [|o t IH]; intros pre m Ho Hi.
  - exists m. rewrite app_nil_r. split; [reflexivity|exact Hi].
  - destruct (clm_step_inv sup pre m o Ns Hi (Ho o (or_introl eq_refl))) as (m1 & Hs & I1).
    destruct (IH (pre ++ [o]) m1) as (m2 & E2 & I2); [intros o' Hin; apply Ho; right; exact Hin|exact I1|].
    exists m2. rewrite <- app_assoc in I2. split; [|exact I2]. cbn [run_opencl]. destruct Hs as [-> | ->]; exact E2.
Qed.
Lemma cl_new_inv sup : clm_inv sup [] (cl_new sup).
Proof. constructor; [reflexivity|constructor|intros d []|]. intros i _. cbn. split; [intros []|discriminate]. Qed.
Theorem C146_opencl_partial sup ops i : NoDup sup -> 0 <= i < Z.of_nat (length sup) ->
  (forall o, In o ops -> in_system (Z.of_nat (length sup)) o) ->
  exists m, run_opencl (cl_new sup) ops = Ok m /\
    clm_device m i = if open_after (Z.of_nat (length sup)) ops i then Ok (nth (Z.to_nat i) sup 0) else Throw m.
Proof.
  intros Ns Hi Ho. destruct (run_opencl_inv sup Ns ops [] (cl_new sup) Ho (cl_new_inv sup)) as (m & E & [S N F O]). cbn [app] in *.
  exists m. split; [exact E|]. specialize (O i Hi). unfold clm_device. rewrite supported_ok by (rewrite S; exact Hi). cbn [bind]. rewrite S.
  destruct (open_after (Z.of_nat (length sup)) ops i).
  - rewrite find_In by (apply O; reflexivity). destruct (clDevices m); [destruct (proj2 O eq_refl)|reflexivity].
  - rewrite find_not_In by (intros H; apply O in H; discriminate). destruct (clDevices m); reflexivity.
Qed.
Example C146_case : let ops := [MInitAll; MClose 0; MActive 1; MInit 5; MInit 2; MClose 2; MInit 0] in
  cmDevices (run_cuda 3 ops) = [1; 0] /\ open_after 3 ops 0 = true /\ open_after 3 ops 1 = true /\ open_after 3 ops 2 = false /\
  (forall o, In o ops -> in_system 3 o) /\ NoDup [40; 50; 60].
Proof.
  cbv zeta. split; [reflexivity|]. do 3 (split; [reflexivity|]). split.
  - cbn [In]. intros o H. repeat (destruct H as [<-|H]; [cbn; lia|]). destruct H.
  - repeat (constructor; [cbn; lia|]). constructor.
Qed.
Print Assumptions C146_cuda_device.
Print Assumptions C146_cuda_count.
Print Assumptions C146_opencl_outside.
Print Assumptions C146_opencl_refuted.
Print Assumptions C146_opencl_partial.

(** ** C147: closing a device and the active device *)

Definition C147_claim : Prop := forall n ops k id,
  open_after n ops id = true -> k <> id -> cm_current (run_cuda n ops) = Ok id -> cm_current (run_cuda n (ops ++ [MClose k])) = Ok id.
Lemma run_cuda_snoc n ops o : run_cuda n (ops ++ [o]) = cm_step (run_cuda n ops) o.
Proof. unfold run_cuda. rewrite fold_left_app. reflexivity. Qed.
(** The destructor of the device makes it active: after any open device is closed, the
    manager has no current device. *)
Theorem C147_none_after_close n ops k : open_after n ops k = true ->
  cm_current (run_cuda n (ops ++ [MClose k])) = Throw (run_cuda n (ops ++ [MClose k])).
Proof.
  intros H. assert (D : cmDefault (run_cuda n (ops ++ [MClose k])) = k).
  { rewrite run_cuda_snoc. cbn [cm_step]. destruct (run_cuda_inv n ops) as [S N O]. unfold cm_close.
    pose proof (open_after_range n ops k H). rewrite S.
    destruct (Z.ltb_spec k 0); [lia|]. destruct (Z.leb_spec n k); [lia|]. cbn [orb].
    rewrite (proj2 (is_open_In k _)) by (apply O, H). reflexivity. }
  unfold cm_current. rewrite D, C146_cuda_device, open_after_snoc, Z.eqb_refl. reflexivity.
Qed.
Theorem C147_cuda_refuted : ~ C147_claim.
Proof.
  intros H. specialize (H 2 [MInitAll] 1 0 eq_refl ltac:(lia) eq_refl). rewrite C147_none_after_close in H by reflexivity. discriminate.
Qed.
(** Right for a device that is not open. *)
Theorem C147_cuda_partial n ops k : open_after n ops k = false -> run_cuda n (ops ++ [MClose k]) = run_cuda n ops.
Proof.
  intros H. rewrite run_cuda_snoc. cbn [cm_step]. destruct (run_cuda_inv n ops) as [S N O]. unfold cm_close.
  destruct ((k <? 0) || (cmSupported (run_cuda n ops) <=? k)); [reflexivity|].
  rewrite (proj2 (is_open_false k _)); [reflexivity|]. rewrite O. congruence.
Qed.
(** setActiveDevice, and then only a closed device or another choice takes it away. *)
Definition leaves (n : Z) (o : mop) : Prop := match o with MInit _ | MInitAll => True | _ => False end.
Lemma cm_default_init n m o : leaves n o -> NoDup (cmDevices m) -> cmDefault (cm_step m o) = cmDefault m.
Proof.
  intros L N. destruct o as [k| | | |]; try destruct L; cbn [cm_step].
  - destruct (cm_initialize_ok m k N) as (m' & -> & _ & _ & _ & D). exact D.
  - destruct (cm_each_ok (ids (cmSupported m)) m N) as (m' & E & _ & _ & _ & D); [intros x Hx; apply ids_In, Hx|].
    unfold cm_initialize_all. rewrite E. exact D.
Qed.
Lemma open_after_init n l : forall ops id, Forall (leaves n) l -> open_after n ops id = true -> open_after n (ops ++ l) id = true.
Proof.
  induction l as [|o l IH]; intros ops id F H; [rewrite app_nil_r; exact H|]. inversion F as [|? ? F1 F2]; subst.
  replace (ops ++ o :: l) with ((ops ++ [o]) ++ l) by (rewrite <- app_assoc; reflexivity). apply IH; [exact F2|].
  rewrite open_after_snoc. destruct o as [k| | | |]; try destruct F1; rewrite H; match goal with |- (if ?b then _ else _) = _ => destruct b; reflexivity end.
Qed.
Theorem C147_cuda_chosen n ops id l : open_after n ops id = true -> Forall (leaves n) l ->
  cm_current (run_cuda n (ops ++ MActive id :: l)) = Ok id.
Proof.
  intros H F. replace (ops ++ MActive id :: l) with ((ops ++ [MActive id]) ++ l) by (rewrite <- app_assoc; reflexivity).
  assert (H0 : open_after n (ops ++ [MActive id]) id = true) by (rewrite open_after_snoc; exact H).
  assert (D : cmDefault (run_cuda n ((ops ++ [MActive id]) ++ l)) = id).
  { assert (D0 : cmDefault (run_cuda n (ops ++ [MActive id])) = id).
    { rewrite run_cuda_snoc. cbn [cm_step]. unfold cm_set_active_device. destruct (run_cuda_inv n ops) as [S N O].
      rewrite (proj2 (is_open_In id _)) by (apply O, H). reflexivity. }
    clear H H0. revert D0. generalize (ops ++ [MActive id]). induction l as [|o l IH]; intros ops' D0; [rewrite app_nil_r; exact D0|].
    inversion F as [|? ? F1 F2]; subst. replace (ops' ++ o :: l) with ((ops' ++ [o]) ++ l) by (rewrite <- app_assoc; reflexivity).
    rewrite (IH F2 (ops' ++ [o])); [reflexivity|]. rewrite run_cuda_snoc. apply (cm_default_init n); [exact F1|]. apply (run_cuda_inv n ops'). }
  unfold cm_current. rewrite D, C146_cuda_device, open_after_init by assumption. reflexivity.
Qed.
(** OpenCL: the other devices stay, and the active one with them. *)
Theorem C147_opencl_partial sup ops k i m : NoDup sup -> (forall o, In o ops -> in_system (Z.of_nat (length sup)) o) ->
  0 <= k -> 0 <= i < Z.of_nat (length sup) -> k <> i ->
  run_opencl (cl_new sup) ops = Ok m -> clDefault m = i -> open_after (Z.of_nat (length sup)) ops i = true ->
  exists m', run_opencl (cl_new sup) (ops ++ [MClose k]) = Ok m' /\ clDefault m' = i /\ clm_current m' = Ok (nth (Z.to_nat i) sup 0).
Proof.
  intros Ns Ho Hk Hi Hne Hr Hd Hop.
  destruct (C146_opencl_partial sup (ops ++ [MClose k]) i Ns Hi) as (m' & E & D).
  { intros o H. apply in_app_or in H as [H|[<-|[]]]; [apply Ho, H|exact Hk]. }
  exists m'. split; [exact E|]. rewrite open_after_snoc in D. destruct (Z.eqb_spec k i); [contradiction|]. rewrite Hop in D.
  assert (Dm : clDefault m' = clDefault m).
  { assert (A : forall l s, run_opencl s (l ++ [MClose k]) = match run_opencl s l with Ok s' => run_opencl s' [MClose k] | r => r end).
    { induction l as [|o l IH]; intros s; [reflexivity|]. cbn [run_opencl app]. destruct (clm_step s o); try reflexivity; apply IH. }
    rewrite A, Hr in E. cbn [run_opencl clm_step] in E. unfold clm_close, supported in E.
    destruct (0 <=? k), (k <? Z.of_nat (length (clSupported m))); cbn [negb andb bind] in E; try discriminate; injection E as <-; reflexivity. }
  split; [congruence|]. unfold clm_current. rewrite Dm, Hd. exact D.
Qed.
Example C147_case : cm_current (run_cuda 2 [MInitAll]) = Ok 0 /\
  (exists m, cm_current (run_cuda 2 ([MInitAll] ++ [MClose 1])) = Throw m) /\
  (exists m, run_opencl (cl_new [40; 50]) [MInitAll; MActive 1; MClose 0] = Ok m /\ clm_current m = Ok 50).
Proof. split; [reflexivity|]. split; eexists; [reflexivity|split; reflexivity]. Qed.
Print Assumptions C147_none_after_close.
Print Assumptions C147_cuda_refuted.
Print Assumptions C147_cuda_partial.
Print Assumptions C147_cuda_chosen.
Print Assumptions C147_opencl_partial.

(** ** C148: the devices OpenCLDeviceManager supports *)

(** What the library says: the devices of the platforms that answer, and whether a context can be made. *)
Definition answered (p : platform) : list Z :=
  match pDevices p with Some l => if pSecond p then l else [] | None => [] end.
Definition C148_claim : Prop := forall usable ps m,
  clSupported (clm_reset usable ps m) = filter usable (flat_map answered ps).
(** The devices of a platform up to the first without a context *)
Fixpoint prefix_of (usable : Z -> bool) (l : list Z) : list Z :=
  match l with [] => [] | x :: t => if usable x then x :: prefix_of usable t else [] end.

Lemma loop_stop usable ids i : forall f n, (n - i <= f)%nat -> (i <= n)%nat -> ((i < n)%nat -> usable (nth i ids 0) = false) -> usable_loop f usable ids i n = i.
Proof.
  induction f as [|f IH]; intros n Hf Hin Hu; cbn [usable_loop]; [lia|]. destruct (Nat.ltb_spec i n); [|lia].
  rewrite Hu by assumption. apply IH; [lia|lia|]. intros _. apply Hu. assumption.
Qed.
Lemma loop_prefix usable t : forall pre f, (length t <= f)%nat ->
  usable_loop f usable (pre ++ t) (length pre) (length (pre ++ t)) = (length pre + length (prefix_of usable t))%nat.
Proof.
  induction t as [|x t IH]; intros pre f Hf; rewrite app_length in *; cbn [length prefix_of] in *.
  - rewrite loop_stop; lia.
  - assert (Nx : nth (length pre) (pre ++ x :: t) 0 = x) by (rewrite app_nth2, Nat.sub_diag by lia; reflexivity).
    destruct (usable x) eqn:U.
    + destruct f as [|f]; [lia|]. cbn [usable_loop]. destruct (Nat.ltb_spec (length pre) (length pre + S (length t))); [|lia].
      rewrite Nx, U. specialize (IH (pre ++ [x]) f ltac:(lia)). rewrite <- app_assoc in IH. cbn [app] in IH.
      rewrite !app_length in IH. cbn [length] in *.
      replace (length pre + 1)%nat with (S (length pre)) in IH by lia. rewrite IH. lia.
    + cbn [length]. rewrite loop_stop; try lia. intros _. rewrite Nx. exact U.
Qed.
Lemma prefix_firstn usable l : firstn (length (prefix_of usable l)) l = prefix_of usable l.
Proof. induction l as [|x l IH]; [reflexivity|]. cbn [prefix_of]. destruct (usable x); [cbn; rewrite IH; reflexivity|reflexivity]. Qed.
Lemma prefix_le usable l : (length (prefix_of usable l) <= length l)%nat.
Proof. induction l as [|x l IH]; cbn; [lia|]. destruct (usable x); cbn; lia. Qed.

(** What is in the list: of every platform the devices up to the first unusable one, then the
    remaining devices of the last platform that answered, usable or not. *)
Definition counted (usable : Z -> bool) (ps : list platform) : list Z := flat_map (fun p => prefix_of usable (answered p)) ps.
Lemma resize_vec_firstn n k l : (n <= k)%nat -> (n <= length l)%nat -> firstn n (resize_vec k l) = firstn n l.
Proof.
  intros H1 H2. unfold resize_vec. rewrite firstn_app, firstn_length.
  replace (n - Nat.min k (length l))%nat with 0%nat by lia. rewrite firstn_O, app_nil_r, firstn_firstn. f_equal. lia.
Qed.
Lemma resize_vec_down n k l : (n <= k)%nat -> (n <= length l)%nat -> resize_vec n (resize_vec k l) = firstn n l.
Proof.
  intros H1 H2. unfold resize_vec at 1. rewrite resize_vec_firstn by assumption.
  replace (n - length (resize_vec k l))%nat with 0%nat; [apply app_nil_r|].
  unfold resize_vec. rewrite app_length, firstn_length, repeat_length. lia.
Qed.
Lemma reset_fold usable ps :
  let s := fold_left (reset_platform usable) ps ([], 0%nat) in
  snd s = length (counted usable ps) /\ exists rest, fst s = counted usable ps ++ rest.
Proof.
  cbv zeta. induction ps as [|p ps IH] using rev_ind; [split; [reflexivity|exists []; reflexivity]|].
  rewrite fold_left_app. cbn [fold_left]. destruct IH as (I1 & rest & I2).
  set (s := fold_left (reset_platform usable) ps ([], 0%nat)) in *. unfold counted. rewrite flat_map_app. cbn [flat_map]. rewrite app_nil_r.
  change (flat_map (fun p => prefix_of usable (answered p)) ps) with (counted usable ps).
  assert (Hle : (snd s <= length (fst s))%nat) by (rewrite I1, I2, app_length; lia).
  assert (Hf : firstn (snd s) (fst s) = counted usable ps).
  { rewrite I1, I2, firstn_app, Nat.sub_diag, firstn_O, app_nil_r. apply firstn_all. }
  unfold reset_platform, answered. destruct (pDevices p) as [l|].
  - destruct (pSecond p).
    + cbn [fst snd]. split.
      * pose proof (loop_prefix usable l [] (length l) (le_n _)) as E. cbn in E. rewrite E, app_length, I1. reflexivity.
      * rewrite resize_vec_firstn by lia. rewrite Hf. exists (skipn (length (prefix_of usable l)) l).
        rewrite <- app_assoc. f_equal. symmetry. rewrite <- (prefix_firstn usable l) at 1. apply firstn_skipn.
    + cbn [fst snd prefix_of]. rewrite app_nil_r. split; [exact I1|]. exists []. rewrite app_nil_r, resize_vec_down by lia. exact Hf.
  - cbn [fst snd prefix_of]. rewrite app_nil_r. split; [exact I1|]. exists rest. exact I2.
Qed.
Theorem C148_last usable ps l m : clSupported (clm_reset usable (ps ++ [mkPlat (Some l) true]) m) = counted usable ps ++ l.
Proof.
  unfold clm_reset. cbn [clSupported]. rewrite fold_left_app. cbn [fold_left].
  destruct (reset_fold usable ps) as (I1 & rest & I2). set (s := fold_left (reset_platform usable) ps ([], 0%nat)) in *.
  unfold reset_platform. cbn [pDevices pSecond fst]. rewrite resize_vec_firstn by (rewrite ?I1, ?I2, ?app_length; lia).
  rewrite I1, I2, firstn_app, Nat.sub_diag, firstn_O, app_nil_r, firstn_all. reflexivity.
Qed.
(** A platform without devices changes nothing; one whose devices cannot be listed cuts off the leftover. *)
Theorem C148_none usable ps b m : clSupported (clm_reset usable (ps ++ [mkPlat None b]) m) = clSupported (clm_reset usable ps m).
Proof. unfold clm_reset. cbn [clSupported]. rewrite fold_left_app. reflexivity. Qed.
Theorem C148_unlisted usable ps l m : clSupported (clm_reset usable (ps ++ [mkPlat (Some l) false]) m) = counted usable ps.
Proof.
  unfold clm_reset. cbn [clSupported]. rewrite fold_left_app. cbn [fold_left].
  destruct (reset_fold usable ps) as (I1 & rest & I2). set (s := fold_left (reset_platform usable) ps ([], 0%nat)) in *.
  unfold reset_platform. cbn [pDevices pSecond fst]. rewrite resize_vec_down by (rewrite ?I1, ?I2, ?app_length; lia).
  rewrite I1, I2, firstn_app, Nat.sub_diag, firstn_O, app_nil_r, firstn_all. reflexivity.
Qed.
(** An unusable device is in the list, and a usable one is not. *)
Theorem C148_refuted : ~ C148_claim.
Proof. intros H. specialize (H (fun d => d =? 1) [mkPlat (Some [2; 1]) true; mkPlat (Some [1; 3]) true] (cl_new [])). discriminate. Qed.
Lemma prefix_all usable l : (forall d, In d l -> usable d = true) -> prefix_of usable l = l.
Proof.
  induction l as [|x l IH]; intros H; [reflexivity|]. cbn [prefix_of]. rewrite (H x) by (left; reflexivity).
  f_equal. apply IH. intros d Hd. apply H. right. exact Hd.
Qed.
Lemma filter_all {A} (f : A -> bool) l : (forall d, In d l -> f d = true) -> filter f l = l.
Proof.
  induction l as [|x l IH]; intros H; [reflexivity|]. cbn [filter]. rewrite (H x) by (left; reflexivity).
  f_equal. apply IH. intros d Hd. apply H. right. exact Hd.
Qed.
(** Right when a context can be made for every device; and no device is open afterwards. *)
Theorem C148_partial usable ps m : (forall d, In d (flat_map answered ps) -> usable d = true) ->
  clSupported (clm_reset usable ps m) = filter usable (flat_map answered ps) /\ clDevices (clm_reset usable ps m) = [].
Proof.
  intros H. split; [|reflexivity]. rewrite filter_all by exact H.
  assert (C : forall q, (forall d, In d (flat_map answered q) -> usable d = true) -> counted usable q = flat_map answered q).
  { induction q as [|p q IH]; intros Hq; [reflexivity|]. cbn [flat_map] in *.
    change (counted usable (p :: q)) with (prefix_of usable (answered p) ++ counted usable q).
    rewrite prefix_all, IH; [reflexivity| |]; intros d Hd; apply Hq, in_or_app; auto. }
  revert H. induction ps as [|p ps IH] using rev_ind; intros H; [reflexivity|].
  assert (H1 : forall d, In d (flat_map answered ps) -> usable d = true) by (intros d Hd; apply H; rewrite flat_map_app; apply in_or_app; auto).
  destruct p as [[l|] [|]].
  - rewrite C148_last, flat_map_app, C by exact H1. cbn. rewrite app_nil_r. reflexivity.
  - rewrite C148_unlisted, flat_map_app, C by exact H1. cbn. rewrite app_nil_r. reflexivity.
  - rewrite C148_none, flat_map_app, IH by exact H1. cbn. rewrite app_nil_r. reflexivity.
  - rewrite C148_none, flat_map_app, IH by exact H1. cbn. rewrite app_nil_r. reflexivity.
Qed.
Example C148_case :
  clSupported (clm_reset (fun d => d =? 1) [mkPlat (Some [2; 1]) true; mkPlat (Some [1; 3]) true] (cl_new [7])) = [1; 3] /\
  clSupported (clm_reset (fun _ => true) [mkPlat (Some [2; 4]) true; mkPlat None true; mkPlat (Some [5]) true] (cl_new [7])) = [2; 4; 5].
Proof. split; reflexivity. Qed.
Print Assumptions C148_last.
Print Assumptions C148_none.
Print Assumptions C148_unlisted.
Print Assumptions C148_refuted.
Print Assumptions C148_partial.

(** ** C149: functions of a device that was closed and opened again *)

(** The device [id]: is it open, has a function run on it, and was it closed after one ran? *)
Definition history (ops : list xop) (id : Z) : bool * bool * bool :=
  fold_left (fun '(op, built, stale) o =>
    match o with
    | XOpen k => if k =? id then (true, built, stale) else (op, built, stale)
    | XClose k => if k =? id then (false, built, stale || (op && built)) else (op, built, stale)
    | XRun k => if k =? id then (op, built || op, stale) else (op, built, stale)
    end) ops (false, false, false).
Definition run_contexts (ops : list xop) : contexts := fold_left cx_step ops cx_new.
Definition C149_claim : Prop := forall ops id, fst (fst (history ops id)) = true -> exists s, cx_run (run_contexts ops) id = Ok s.

Record cx_inv (ops : list xop) (s : contexts) : Prop := mkCxInv {
  cxi_next : forall id c, cxOpen s id = Some c \/ cxCache s id = Some c -> c < cxNext s;
  cxi_open : forall id, fst (fst (history ops id)) = match cxOpen s id with Some _ => true | None => false end;
  cxi_built : forall id, snd (fst (history ops id)) = match cxCache s id with Some _ => true | None => false end;
  cxi_stale : forall id, match cxOpen s id, cxCache s id with
    | Some c, Some c' => snd (history ops id) = negb (c =? c')
    | None, Some _ => snd (history ops id) = true
    | _, None => snd (history ops id) = false
    end
}.
Lemma history_snoc ops o id : history (ops ++ [o]) id = let '(op, built, stale) := history ops id in
    match o with
    | XOpen k => if k =? id then (true, built, stale) else (op, built, stale)
    | XClose k => if k =? id then (false, built, stale || (op && built)) else (op, built, stale)
    | XRun k => if k =? id then (op, built || op, stale) else (op, built, stale)
    end.
Proof.
  unfold history. rewrite fold_left_app. cbn [fold_left]. destruct (fold_left _ ops _) as [[op bu] st]. reflexivity.
Qed.
Lemma cx_step_inv ops s o : cx_inv ops s -> cx_inv (ops ++ [o]) (cx_step s o).
Proof.
  intros [I1 I2 I3 I4].
  assert (A : forall id, history (ops ++ [o]) id = history ops id -> 
     cxOpen (cx_step s o) id = cxOpen s id -> cxCache (cx_step s o) id = cxCache s id ->
     fst (fst (history (ops ++ [o]) id)) = match cxOpen (cx_step s o) id with Some _ => true | None => false end /\
     snd (fst (history (ops ++ [o]) id)) = match cxCache (cx_step s o) id with Some _ => true | None => false end /\
     match cxOpen (cx_step s o) id, cxCache (cx_step s o) id with
     | Some c, Some c' => snd (history (ops ++ [o]) id) = negb (c =? c')
     | None, Some _ => snd (history (ops ++ [o]) id) = true
     | _, None => snd (history (ops ++ [o]) id) = false
     end) by (intros id -> -> ->; exact (conj (I2 id) (conj (I3 id) (I4 id)))).
  assert (B : (forall id c, cxOpen (cx_step s o) id = Some c \/ cxCache (cx_step s o) id = Some c -> c < cxNext (cx_step s o)) /\ forall id,
     fst (fst (history (ops ++ [o]) id)) = match cxOpen (cx_step s o) id with Some _ => true | None => false end /\
     snd (fst (history (ops ++ [o]) id)) = match cxCache (cx_step s o) id with Some _ => true | None => false end /\
     match cxOpen (cx_step s o) id, cxCache (cx_step s o) id with
     | Some c, Some c' => snd (history (ops ++ [o]) id) = negb (c =? c')
     | None, Some _ => snd (history (ops ++ [o]) id) = true
     | _, None => snd (history (ops ++ [o]) id) = false
     end).
  2:{ destruct B as [B1 B2]. constructor; [exact B1| | |]; intros id; apply B2. }
  destruct o as [k|k|k]; cbn [cx_step] in *.
  - destruct (cxOpen s k) as [c0|] eqn:Ek.
    + split; [exact I1|]. intros id. rewrite history_snoc in *. specialize (I2 id). specialize (I3 id). specialize (I4 id).
      destruct (history ops id) as [[op bu] st]. cbn [fst snd] in *. destruct (Z.eqb_spec k id) as [->|]; [|auto].
      rewrite Ek in *. cbn [fst snd]. auto.
    + cbn [cxOpen cxCache cxNext] in *. split.
      * intros id c. unfold upd. destruct (id =? k); [intros [H|H]; [injection H as <-; lia|specialize (I1 id c (or_intror H)); lia]|].
        intros H. specialize (I1 id c H). lia.
      * intros id. destruct (Z.eqb_spec k id) as [->|Hne].
        -- rewrite history_snoc. specialize (I2 id). specialize (I3 id). specialize (I4 id). rewrite Ek in *.
           destruct (history ops id) as [[op bu] st]. cbn [fst snd] in *. rewrite Z.eqb_refl. unfold upd. rewrite Z.eqb_refl. cbn [fst snd].
           split; [reflexivity|]. split; [exact I3|]. destruct (cxCache s id) as [c'|] eqn:Ec; [|exact I4].
           pose proof (I1 id c' (or_intror Ec)). rewrite I4. destruct (Z.eqb_spec (cxNext s) c'); [lia|reflexivity].
        -- apply A; [|unfold upd; destruct (Z.eqb_spec id k); [congruence|reflexivity]|reflexivity].
           rewrite history_snoc. destruct (history ops id) as [[op bu] st]. destruct (Z.eqb_spec k id); [contradiction|reflexivity].
  - cbn [cxOpen cxCache cxNext] in *. split.
    + intros id c. unfold upd. destruct (id =? k); [intros [H|H]; [discriminate|apply (I1 id c); auto]|apply (I1 id c)].
    + intros id. destruct (Z.eqb_spec k id) as [->|Hne].
      * rewrite history_snoc. specialize (I2 id). specialize (I3 id). specialize (I4 id).
        destruct (history ops id) as [[op bu] st]. cbn [fst snd] in *. rewrite Z.eqb_refl. unfold upd. rewrite Z.eqb_refl. cbn [fst snd].
        split; [reflexivity|]. split; [exact I3|]. subst op bu. destruct (cxOpen s id), (cxCache s id); cbn; rewrite ?orb_true_r, ?orb_false_r; auto.
      * apply A; [|unfold upd; destruct (Z.eqb_spec id k); [congruence|reflexivity]|reflexivity].
        rewrite history_snoc. destruct (history ops id) as [[op bu] st]. destruct (Z.eqb_spec k id); [contradiction|reflexivity].
  - unfold cx_run in *. destruct (cxOpen s k) as [c|] eqn:Ek; [destruct (cxCache s k) as [c'|] eqn:Ec|].
    + replace (keep (if c =? c' then Ok s else Throw s) s) with s in * by (destruct (c =? c'); reflexivity).
      split; [exact I1|]. intros id. rewrite history_snoc in *. specialize (I2 id). specialize (I3 id). specialize (I4 id).
      destruct (history ops id) as [[op bu] st]. cbn [fst snd] in *. destruct (Z.eqb_spec k id) as [->|]; [|auto].
      rewrite Ek, Ec in *. subst op bu. cbn [fst snd orb]. auto.
    + cbn [keep cxOpen cxCache cxNext] in *. split.
      * intros id c0. unfold upd. destruct (Z.eqb_spec id k) as [->|]; [intros [H|H]; [apply (I1 k c0); auto|injection H as <-; apply (I1 k c); auto]|apply (I1 id c0)].
      * intros id. destruct (Z.eqb_spec k id) as [->|Hne].
        -- rewrite history_snoc. specialize (I2 id). specialize (I3 id). specialize (I4 id). rewrite Ek, Ec in *.
           destruct (history ops id) as [[op bu] st]. cbn [fst snd] in *. rewrite Z.eqb_refl. unfold upd. rewrite Z.eqb_refl. cbn [fst snd].
           subst op bu st. rewrite Z.eqb_refl. auto.
        -- apply A; [|reflexivity|unfold upd; destruct (Z.eqb_spec id k); [congruence|reflexivity]].
           rewrite history_snoc. destruct (history ops id) as [[op bu] st]. destruct (Z.eqb_spec k id); [contradiction|reflexivity].
    + cbn [keep] in *. split; [exact I1|]. intros id. rewrite history_snoc in *. specialize (I2 id). specialize (I3 id). specialize (I4 id).
      destruct (history ops id) as [[op bu] st]. cbn [fst snd] in *. destruct (Z.eqb_spec k id) as [->|]; [|auto].
      rewrite Ek in *. subst op bu. cbn [fst snd]. rewrite orb_false_r. auto.
Qed.
Lemma run_contexts_inv ops : cx_inv ops (run_contexts ops).
Proof.
  unfold run_contexts. induction ops as [|o ops IH] using rev_ind.
  - constructor; cbn; auto. intros id c [H|H]; discriminate.
  - rewrite fold_left_app. cbn [fold_left]. apply cx_step_inv, IH.
Qed.
(** A function works exactly when the device is open and was never closed after one ran. *)
Theorem C149_run ops id : let '(op, built, stale) := history ops id in
  if op && negb stale then exists s, cx_run (run_contexts ops) id = Ok s else cx_run (run_contexts ops) id = Throw (run_contexts ops).
Proof.
  destruct (run_contexts_inv ops) as [I1 I2 I3 I4]. specialize (I2 id). specialize (I3 id). specialize (I4 id).
  destruct (history ops id) as [[op bu] st]. cbn [fst snd] in *. unfold cx_run. subst op.
  destruct (cxOpen (run_contexts ops) id) as [c|]; [|reflexivity].
  destruct (cxCache (run_contexts ops) id) as [c'|]; subst st; cbn [andb negb]; [|eexists; reflexivity].
  destruct (c =? c'); cbn [negb]; [eexists; reflexivity|reflexivity].
Qed.
(** Never again, whatever is done. *)
Theorem C149_never ops l id : snd (history ops id) = true -> cx_run (run_contexts (ops ++ l)) id = Throw (run_contexts (ops ++ l)).
Proof.
  intros H. assert (H1 : snd (history (ops ++ l) id) = true).
  { induction l as [|o l IH] using rev_ind; [rewrite app_nil_r; exact H|]. rewrite app_assoc, history_snoc.
    destruct (history (ops ++ l) id) as [[op bu] st]. cbn [snd] in IH. subst st. destruct o as [k|k|k]; destruct (k =? id); reflexivity. }
  pose proof (C149_run (ops ++ l) id) as R. destruct (history (ops ++ l) id) as [[op bu] st]. cbn [snd] in H1. subst st.
  rewrite andb_false_r in R. exact R.
Qed.
Theorem C149_refuted : ~ C149_claim.
Proof. intros H. destruct (H [XOpen 0; XRun 0; XClose 0; XOpen 0] 0 eq_refl) as (s & E). vm_compute in E. discriminate. Qed.
(** Right while no device is closed. *)
Theorem C149_partial ops id : fst (fst (history ops id)) = true -> (forall k, ~ In (XClose k) ops) ->
  exists s, cx_run (run_contexts ops) id = Ok s.
Proof.
  intros Ho Hc. assert (Hs : snd (history ops id) = false).
  { clear Ho. induction ops as [|o ops IH] using rev_ind; [reflexivity|]. rewrite history_snoc.
    assert (IH' : snd (history ops id) = false) by (apply IH; intros k Hk; apply (Hc k), in_or_app; auto).
    destruct (history ops id) as [[op bu] st]. cbn [snd] in IH'. subst st.
    destruct o as [k|k|k]; [destruct (k =? id); reflexivity| |destruct (k =? id); reflexivity].
    exfalso. apply (Hc k). apply in_or_app. right. left. reflexivity. }
  pose proof (C149_run ops id) as R. destruct (history ops id) as [[op bu] st]. cbn [fst snd] in *. subst op st. exact R.
Qed.
Example C149_case : history [XOpen 0; XOpen 1; XRun 0; XClose 0; XClose 1; XOpen 0; XOpen 1] 0 = (true, true, true) /\
  history [XOpen 0; XOpen 1; XRun 0; XClose 0; XClose 1; XOpen 0; XOpen 1] 1 = (true, false, false).
Proof. split; reflexivity. Qed.
Print Assumptions C149_run.
Print Assumptions C149_never.
Print Assumptions C149_refuted.
Print Assumptions C149_partial.
