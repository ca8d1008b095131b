(** Lemmas about Base.v: loops as counted iterations, memory updates, and the
    general theorem about sequences of gather / compute / scatter steps. *)
From Coq Require Import ZArith List Bool Lia.
From Verif Require Import Base.
Import ListNotations.
Open Scope Z_scope.

Ltac Zify.zify_post_hook ::= Z.div_mod_to_equations.

(** ** Monad *)

Lemma bind_assoc {E A B C} (r : res E A) (f : A -> res E B) (g : B -> res E C) :
  bind (bind r f) g = bind r (fun a => bind (f a) g).
Proof. destruct r; reflexivity. Qed.

Lemma bind_ok_r {E A} (r : res E A) : bind r (fun a => Ok a) = r.
Proof. destruct r; reflexivity. Qed.

Lemma bind_ext {E A B} (r : res E A) (f g : A -> res E B) :
  (forall a, r = Ok a -> f a = g a) -> bind r f = bind r g.
Proof. intros H. destruct r; simpl; auto. Qed.

Lemma bind_ok_inv {E A B} (r : res E A) (f : A -> res E B) b :
  bind r f = Ok b -> exists a, r = Ok a /\ f a = Ok b.
Proof. destruct r; simpl; intros H; try discriminate; eauto. Qed.

(** ** Machine integers *)

Lemma u32_small z : 0 <= z < W32 -> u32 z = z.
Proof. intros. unfold u32. apply Z.mod_small. assumption. Qed.

Lemma u32_range z : 0 <= u32 z < W32.
Proof. unfold u32, W32. apply Z.mod_pos_bound. lia. Qed.

Lemma u8_small z : 0 <= z < 256 -> u8 z = z.
Proof. intros. unfold u8. apply Z.mod_small. assumption. Qed.

Lemma u8_range z : 0 <= u8 z < 256.
Proof. unfold u8. apply Z.mod_pos_bound. lia. Qed.

(** ** Pointers *)

Lemma ptr_eqb_spec p q : reflect (p = q) (ptr_eqb p q).
Proof.
  unfold ptr_eqb. destruct p as [a b], q as [c d]; simpl.
  destruct (Z.eqb_spec a c); destruct (Z.eqb_spec b d); simpl; constructor; congruence.
Qed.

Lemma ptr_eqb_refl p : ptr_eqb p p = true.
Proof. destruct (ptr_eqb_spec p p); congruence. Qed.

Lemma padd_padd p a b : padd (padd p a) b = padd p (a + b).
Proof. unfold padd; simpl. f_equal. lia. Qed.

Lemma padd_0 p : padd p 0 = p.
Proof. unfold padd; destruct p; simpl. f_equal. lia. Qed.

Lemma padd_inj p a b : padd p a = padd p b -> a = b.
Proof. unfold padd. intros H. injection H. lia. Qed.

Lemma ptr_eqb_padd p a b : ptr_eqb (padd p a) (padd p b) = (a =? b).
Proof.
  unfold ptr_eqb, padd; simpl. rewrite Z.eqb_refl. simpl.
  destruct (Z.eqb_spec (snd p + a) (snd p + b)); destruct (Z.eqb_spec a b); auto; lia.
Qed.

(** ** Memory *)

Lemma get_upd m p v q : get (upd m p v) q = if ptr_eqb q p then v else get m q.
Proof.
  unfold get, upd, ptr_eqb. destruct (Z.eqb_spec (fst q) (fst p)) as [e|n]; simpl; auto.
Qed.

Lemma get_upd_same m p v : get (upd m p v) p = v.
Proof. rewrite get_upd, ptr_eqb_refl. reflexivity. Qed.

Lemma get_upd_other m p v q : q <> p -> get (upd m p v) q = get m q.
Proof. intros H. rewrite get_upd. destruct (ptr_eqb_spec q p); congruence. Qed.

Lemma len_upd m p v b : len (upd m p v) b = len m b.
Proof. unfold len, upd. destruct (b =? fst p); reflexivity. Qed.

Lemma inb_upd m p v q : inb (upd m p v) q = inb m q.
Proof. unfold inb. rewrite len_upd. reflexivity. Qed.

Lemma inb_iff m p : inb m p = true <-> 0 <= snd p < len m (fst p).
Proof. unfold inb. rewrite andb_true_iff, Z.leb_le, Z.ltb_lt. tauto. Qed.

(** Two memories with the same blocks. *)
Definition same_len (m m' : mem) : Prop := forall b, len m' b = len m b.

Lemma same_len_refl m : same_len m m.
Proof. intros b; reflexivity. Qed.
Lemma same_len_trans m1 m2 m3 : same_len m1 m2 -> same_len m2 m3 -> same_len m1 m3.
Proof. intros H1 H2 b. rewrite H2, H1. reflexivity. Qed.
Lemma same_len_inb m m' p : same_len m m' -> inb m' p = inb m p.
Proof. intros H. unfold inb. rewrite H. reflexivity. Qed.

(** Observational equality of memories. *)
Definition meq (m m' : mem) : Prop := same_len m m' /\ forall p, get m' p = get m p.

Lemma load_ok {E} m p : inb m p = true -> @load E m p = Ok (get m p).
Proof. intros H. unfold load. rewrite H. reflexivity. Qed.

Lemma store_ok {E} m p v : inb m p = true -> @store E m p v = Ok (upd m p v).
Proof. intros H. unfold store. rewrite H. reflexivity. Qed.

Lemma loads_ok {E} m ps :
  (forall p, In p ps -> inb m p = true) -> @loads E m ps = Ok (map (get m) ps).
Proof.
  induction ps as [|p ps IH]; intros H; simpl; auto.
  rewrite load_ok by (apply H; left; auto). simpl.
  rewrite IH by (intros; apply H; right; auto). reflexivity.
Qed.

Lemma stores_ok {E} ps : forall m vs,
  (forall p, In p ps -> inb m p = true) -> length vs = length ps ->
  exists m', @stores E m ps vs = Ok m' /\ same_len m m' /\
    (forall q, ~ In q ps -> get m' q = get m q) /\
    (NoDup ps -> forall i d, (i < length ps)%nat -> get m' (nth i ps d) = nth i vs 0).
Proof.
  induction ps as [|p ps IH]; intros m vs Hin Hlen; destruct vs as [|v vs]; simpl in *; try lia.
  - exists m. repeat split; auto using same_len_refl. intros _ i d Hi; lia.
  - rewrite store_ok by (apply Hin; auto). simpl.
    destruct (IH (upd m p v) vs) as (m' & He & Hl & Hf & Hv).
    + intros q Hq. rewrite inb_upd. apply Hin; auto.
    + lia.
    + exists m'. split; [exact He|]. split; [|split].
      * eapply same_len_trans; [|exact Hl]. intros b. apply len_upd.
      * intros q Hq. rewrite Hf by tauto. apply get_upd_other. intros ->. apply Hq. auto.
      * intros Hnd i d Hi. inversion Hnd as [|? ? Hp Hnd']; subst.
        destruct i as [|i]; simpl.
        -- rewrite Hf by assumption. apply get_upd_same.
        -- apply (Hv Hnd' i d). lia.
Qed.

Lemma span_nth n : forall p i d, (i < n)%nat -> nth i (span p n) d = padd p (Z.of_nat i).
Proof.
  induction n as [|n IH]; intros p i d Hi; [lia|].
  destruct i as [|i]; simpl.
  - rewrite padd_0; reflexivity.
  - rewrite IH by lia. rewrite padd_padd. f_equal. lia.
Qed.

Lemma span_length n : forall p, length (span p n) = n.
Proof. induction n; intros; simpl; auto. Qed.

Lemma span_In n p q : In q (span p n) <-> exists i, 0 <= i < Z.of_nat n /\ q = padd p i.
Proof.
  revert p. induction n as [|n IH]; intros p.
  - simpl. split; [tauto|]. intros (i & Hi & _). lia.
  - cbn [span In]. rewrite IH. split.
    + intros [<-|(i & Hi & ->)].
      * exists 0. split; [lia|]. rewrite padd_0; reflexivity.
      * exists (1 + i). split; [lia|]. apply padd_padd.
    + intros (i & Hi & ->). destruct (Z.eq_dec i 0) as [->|Hn].
      * left. symmetry. apply padd_0.
      * right. exists (i - 1). split; [lia|]. rewrite padd_padd. f_equal. lia.
Qed.

Lemma span_NoDup n : forall p, NoDup (span p n).
Proof.
  induction n as [|n IH]; intros p; simpl; constructor; auto.
  rewrite span_In. intros (i & Hi & He). rewrite padd_padd in He.
  rewrite <- (padd_0 p) in He at 1. apply padd_inj in He. lia.
Qed.

(** ** Iteration *)

Lemma iterM_ext {E S} n : forall k (g h : Z -> S -> res E S) s,
  (forall i s, k <= i < k + Z.of_nat n -> g i s = h i s) ->
  iterM n k g s = iterM n k h s.
Proof.
  induction n as [|n IH]; intros k g h s H; simpl; auto.
  rewrite H by lia. apply bind_ext. intros s' _. apply IH. intros. apply H. lia.
Qed.

Lemma iterM_app {E S} n1 : forall n2 k (g : Z -> S -> res E S) s,
  iterM (n1 + n2) k g s = bind (iterM n1 k g s) (iterM n2 (k + Z.of_nat n1) g).
Proof.
  induction n1 as [|n1 IH]; intros n2 k g s.
  - simpl. replace (k + 0) with k by lia. reflexivity.
  - cbn [iterM Nat.add]. rewrite bind_assoc. apply bind_ext. intros s' _.
    rewrite IH. replace (k + 1 + Z.of_nat n1) with (k + Z.of_nat (Datatypes.S n1)) by lia.
    reflexivity.
Qed.

Lemma iterM_shift {E S} n : forall k d (g : Z -> S -> res E S) s,
  iterM n (k + d) g s = iterM n k (fun i => g (i + d)) s.
Proof.
  induction n as [|n IH]; intros k d g s; simpl; auto.
  apply bind_ext. intros s' _. rewrite <- IH. f_equal. lia.
Qed.

(** Nested counted loops are one counted loop over the flattened index. *)
Lemma iterM_nest {E S} (w : nat) : forall (h : nat) (g : Z -> S -> res E S) j0 s,
  iterM h j0 (fun j => iterM w 0 (fun i => g (j * Z.of_nat w + i))) s
  = iterM (h * w) (j0 * Z.of_nat w) g s.
Proof.
  induction h as [|h IH]; intros g j0 s.
  - reflexivity.
  - cbn [iterM]. replace (Datatypes.S h * w)%nat with (w + h * w)%nat by lia.
    rewrite iterM_app.
    replace (iterM w (j0 * Z.of_nat w) g s)
      with (iterM w 0 (fun i => g (j0 * Z.of_nat w + i)) s).
    + apply bind_ext. intros s' _. rewrite IH. f_equal. lia.
    + transitivity (iterM w (0 + j0 * Z.of_nat w) g s); [|f_equal; lia].
      rewrite iterM_shift. apply iterM_ext. intros i t _. f_equal. lia.
Qed.

(** Hoare rule for counted iteration. *)
Lemma iterM_inv {E S} (P : Z -> S -> Prop) (g : Z -> S -> res E S) n : forall k s,
  P k s ->
  (forall i t, k <= i < k + Z.of_nat n -> P i t -> exists t', g i t = Ok t' /\ P (i + 1) t') ->
  exists s', iterM n k g s = Ok s' /\ P (k + Z.of_nat n) s'.
Proof.
  induction n as [|n IH]; intros k s H0 Hs.
  - exists s. simpl. split; auto. replace (k + 0) with k by lia. assumption.
  - destruct (Hs k s) as (s1 & He & H1); [lia|assumption|].
    cbn [iterM]. rewrite He. cbn [bind].
    destruct (IH (k + 1) s1 H1) as (s2 & He2 & H2).
    + intros i t Hi. apply Hs. lia.
    + exists s2. split; auto. replace (k + Z.of_nat (Datatypes.S n)) with (k + 1 + Z.of_nat n) by lia.
      assumption.
Qed.

(** A C++ loop whose variables are a function [mk] of the iteration number. *)
Lemma loop_iterM {E S T} (mk : Z -> T -> S) cond body (g : Z -> T -> res E T) n :
  forall fuel k0 t,
  (forall k t, k0 <= k < k0 + Z.of_nat n -> cond (mk k t) = true) ->
  (forall t, cond (mk (k0 + Z.of_nat n) t) = false) ->
  (forall k t, k0 <= k < k0 + Z.of_nat n ->
     body (mk k t) = bind (g k t) (fun t' => Ok (mk (k + 1) t'))) ->
  (n < fuel)%nat ->
  loop fuel cond body (mk k0 t) = bind (iterM n k0 g t) (fun t' => Ok (mk (k0 + Z.of_nat n) t')).
Proof.
  induction n as [|n IH]; intros fuel k0 t Hc Hd Hb Hf.
  - destruct fuel as [|fuel]; [lia|]. cbn [loop iterM bind].
    replace (k0 + Z.of_nat 0) with k0 in * by lia. rewrite Hd. reflexivity.
  - destruct fuel as [|fuel]; [lia|]. cbn [loop iterM].
    rewrite Hc by lia. rewrite Hb by lia. rewrite !bind_assoc.
    apply bind_ext. intros t' _. cbn [bind].
    rewrite IH; [| | | |lia].
    + replace (k0 + 1 + Z.of_nat n) with (k0 + Z.of_nat (Datatypes.S n)) by lia. reflexivity.
    + intros k t1 Hk. apply Hc. lia.
    + intros t1. replace (k0 + 1 + Z.of_nat n) with (k0 + Z.of_nat (Datatypes.S n)) by lia. apply Hd.
    + intros k t1 Hk. apply Hb. lia.
Qed.

(** ** Sequences of gather / compute / scatter steps *)

(** One step: load all of [srcs], compute, then store to all of [dsts]. *)
Definition gstep {E} (srcs dsts : list ptr) (fn : list Z -> res E (list Z))
    (m : mem) : res E mem :=
  bind (loads m srcs) (fun vs => bind (fn vs) (fun ws => stores m dsts ws)).

Theorem scatter_run {E} (srcs dsts : Z -> list ptr) (fn : Z -> list Z -> res E (list Z))
    (vals : Z -> list Z) (n : nat) (m : mem) :
  (forall k, 0 <= k < Z.of_nat n -> forall p, In p (srcs k) -> inb m p = true) ->
  (forall k, 0 <= k < Z.of_nat n -> forall p, In p (dsts k) -> inb m p = true) ->
  (forall k, 0 <= k < Z.of_nat n ->
     fn k (map (get m) (srcs k)) = Ok (vals k) /\ length (vals k) = length (dsts k)) ->
  (forall k, 0 <= k < Z.of_nat n -> NoDup (dsts k)) ->
  (forall j k p, 0 <= j < k -> k < Z.of_nat n -> In p (dsts j) -> In p (dsts k) -> False) ->
  (forall j k p, 0 <= j < k -> k < Z.of_nat n -> In p (dsts j) -> In p (srcs k) -> False) ->
  exists m', iterM n 0 (fun k => gstep (srcs k) (dsts k) (fn k)) m = Ok m' /\ same_len m m' /\
    (forall q, (forall k, 0 <= k < Z.of_nat n -> ~ In q (dsts k)) -> get m' q = get m q) /\
    (forall k i d, 0 <= k < Z.of_nat n -> (i < length (dsts k))%nat ->
       get m' (nth i (dsts k) d) = nth i (vals k) 0).
Proof.
  intros Hsrc Hdst Hfn Hnd Hdd Hsd.
  destruct (@iterM_inv E mem
    (fun k t => same_len m t /\
      (forall q, (forall j, 0 <= j < k -> ~ In q (dsts j)) -> get t q = get m q) /\
      (forall j i d, 0 <= j < k -> (i < length (dsts j))%nat ->
         get t (nth i (dsts j) d) = nth i (vals j) 0))
    (fun k => gstep (srcs k) (dsts k) (fn k)) n 0 m) as (m' & He & Hl & Hf & Hv).
  - split; [apply same_len_refl|]. split; [auto|]. intros; lia.
  - intros k t Hk (Hl & Hf & Hv). simpl in Hk.
    unfold gstep.
    rewrite loads_ok by (intros p Hp; rewrite (same_len_inb m t) by assumption; eapply Hsrc; eauto; lia).
    cbn [bind].
    assert (Hmap : map (get t) (srcs k) = map (get m) (srcs k)).
    { apply map_ext_in. intros p Hp. apply Hf. intros j Hj Hin. eapply (Hsd j k p); eauto; lia. }
    rewrite Hmap. destruct (Hfn k) as [Hfe Hfl]; [lia|]. rewrite Hfe. cbn [bind].
    destruct (@stores_ok E (dsts k) t (vals k)) as (t' & He & Hl' & Hf' & Hv').
    + intros p Hp. rewrite (same_len_inb m t) by assumption. eapply Hdst; eauto; lia.
    + assumption.
    + exists t'. split; [exact He|]. split; [eapply same_len_trans; eauto|]. split.
      * intros q Hq. rewrite Hf'.
        -- apply Hf. intros j Hj. apply Hq. lia.
        -- apply Hq. lia.
      * intros j i d Hj Hi. destruct (Z.eq_dec j k) as [->|Hne].
        -- apply Hv'; auto.
        -- rewrite Hf'.
           ++ apply Hv; auto; lia.
           ++ intros Hin. eapply (Hdd j k); eauto; try lia. apply nth_In. assumption.
  - simpl in *. exists m'. auto.
Qed.

Lemma divmod_flat w j i : 0 <= i < w -> (j * w + i) / w = j /\ (j * w + i) mod w = i.
Proof.
  intros H. split.
  - symmetry. apply (Z.div_unique _ _ _ i); lia.
  - symmetry. apply (Z.mod_unique _ _ j); lia.
Qed.

(** The same for two nested loops. *)
Theorem scatter2 {E} (srcs dsts : Z -> Z -> list ptr) (fn : Z -> Z -> list Z -> res E (list Z))
    (vals : Z -> Z -> list Z) (h w : nat) (m : mem) :
  let ok j i := 0 <= j < Z.of_nat h /\ 0 <= i < Z.of_nat w in
  (forall j i, ok j i -> forall p, In p (srcs j i) -> inb m p = true) ->
  (forall j i, ok j i -> forall p, In p (dsts j i) -> inb m p = true) ->
  (forall j i, ok j i ->
     fn j i (map (get m) (srcs j i)) = Ok (vals j i) /\ length (vals j i) = length (dsts j i)) ->
  (forall j i, ok j i -> NoDup (dsts j i)) ->
  (forall j i j' i' p, ok j i -> ok j' i' -> In p (dsts j i) -> In p (dsts j' i') -> j = j' /\ i = i') ->
  (forall j i j' i' p, ok j i -> ok j' i' -> In p (dsts j i) -> In p (srcs j' i') -> j = j' /\ i = i') ->
  exists m', iterM h 0 (fun j => iterM w 0 (fun i => gstep (srcs j i) (dsts j i) (fn j i))) m = Ok m'
    /\ same_len m m' /\
    (forall q, (forall j i, ok j i -> ~ In q (dsts j i)) -> get m' q = get m q) /\
    (forall j i k d, ok j i -> (k < length (dsts j i))%nat ->
       get m' (nth k (dsts j i) d) = nth k (vals j i) 0).
Proof.
  intros ok Hsrc Hdst Hfn Hnd Hdd Hsd.
  set (W := Z.of_nat w).
  assert (Hok : forall k, 0 <= k < Z.of_nat (h * w) -> ok (k / W) (k mod W)).
  { intros k Hk. unfold ok. subst W.
    assert (0 < Z.of_nat w) by nia.
    pose proof (Z.mod_pos_bound k (Z.of_nat w)).
    pose proof (Z.div_mod k (Z.of_nat w)).
    split; [|lia]. split; [apply Z.div_pos; lia|]. apply Z.div_lt_upper_bound; nia. }
  assert (Hne : forall j k, 0 <= j < k -> 0 <= k -> k < Z.of_nat (h * w) ->
            j / W = k / W /\ j mod W = k mod W -> False).
  { intros j k Hj Hk0 Hk [E1 E2]. assert (0 < W) by (subst W; nia).
    pose proof (Z.div_mod j W). pose proof (Z.div_mod k W). rewrite E1, E2 in *. lia. }
  destruct (@scatter_run E (fun k => srcs (k / W) (k mod W)) (fun k => dsts (k / W) (k mod W))
              (fun k => fn (k / W) (k mod W)) (fun k => vals (k / W) (k mod W)) (h * w) m)
    as (m' & He & Hl & Hf & Hv).
  - intros k Hk. apply Hsrc; auto.
  - intros k Hk. apply Hdst; auto.
  - intros k Hk. apply Hfn; auto.
  - intros k Hk. apply Hnd; auto.
  - intros j k p Hj Hk H1 H2. apply (Hne j k); try lia. eapply Hdd; eauto; apply Hok; lia.
  - intros j k p Hj Hk H1 H2. apply (Hne j k); try lia. eapply Hsd; eauto; apply Hok; lia.
  - exists m'. split; [|split; [exact Hl|split]].
    + rewrite <- He.
      pose proof (@iterM_nest E mem w h
        (fun k => gstep (srcs (k / W) (k mod W)) (dsts (k / W) (k mod W)) (fn (k / W) (k mod W))) 0 m) as Hn.
      cbn [Z.mul] in Hn. rewrite <- Hn.
      apply iterM_ext. intros j s Hj. apply iterM_ext. intros i t Hi.
      destruct (divmod_flat W j i) as [E1 E2]; [subst W; lia|].
      fold W. rewrite E1, E2. reflexivity.
    + intros q Hq. apply Hf. intros k Hk. apply Hq. apply Hok; auto.
    + intros j i k d [Hj Hi] Hk.
      destruct (divmod_flat W j i) as [E1 E2]; [subst W; lia|].
      specialize (Hv (j * W + i) k d). cbn beta in Hv. rewrite E1, E2 in Hv. apply Hv; auto.
      subst W. nia.
Qed.

(** One store per step. *)
Definition sstep {E} (srcs : list ptr) (dst : ptr) (fn : list Z -> res E Z) (m : mem) : res E mem :=
  bind (loads m srcs) (fun vs => bind (fn vs) (fun v => store m dst v)).

Theorem scatter2_1 {E} (srcs : Z -> Z -> list ptr) (dst : Z -> Z -> ptr)
    (fn : Z -> Z -> list Z -> res E Z) (val : Z -> Z -> Z) (h w : nat) (m : mem) :
  let ok j i := 0 <= j < Z.of_nat h /\ 0 <= i < Z.of_nat w in
  (forall j i, ok j i -> forall p, In p (srcs j i) -> inb m p = true) ->
  (forall j i, ok j i -> inb m (dst j i) = true) ->
  (forall j i, ok j i -> fn j i (map (get m) (srcs j i)) = Ok (val j i)) ->
  (forall j i j' i', ok j i -> ok j' i' -> dst j i = dst j' i' -> j = j' /\ i = i') ->
  (forall j i j' i', ok j i -> ok j' i' -> In (dst j i) (srcs j' i') -> j = j' /\ i = i') ->
  exists m', iterM h 0 (fun j => iterM w 0 (fun i => sstep (srcs j i) (dst j i) (fn j i))) m = Ok m'
    /\ same_len m m' /\
    (forall q, (forall j i, ok j i -> q <> dst j i) -> get m' q = get m q) /\
    (forall j i, ok j i -> get m' (dst j i) = val j i).
Proof.
  intros ok Hsrc Hdst Hfn Hdd Hsd.
  destruct (@scatter2 E srcs (fun j i => [dst j i])
              (fun j i vs => bind (fn j i vs) (fun v => Ok [v])) (fun j i => [val j i]) h w m)
    as (m' & He & Hl & Hf & Hv).
  - exact Hsrc.
  - intros j i Hok p [<-|[]]. auto.
  - intros j i Hok. rewrite Hfn by assumption. split; reflexivity.
  - intros j i _. constructor; [simpl; tauto|constructor].
  - intros j i j' i' p H1 H2 [<-|[]] [H|[]]. eapply Hdd; eauto.
  - intros j i j' i' p H1 H2 [<-|[]] H. eapply Hsd; eauto.
  - exists m'. split; [|split; [exact Hl|split]].
    + rewrite <- He. apply iterM_ext. intros j s _. apply iterM_ext. intros i t _.
      unfold sstep, gstep. apply bind_ext. intros vs _. rewrite bind_assoc.
      apply bind_ext. intros v _. cbn [bind stores]. symmetry. apply bind_ok_r.
    + intros q Hq. apply Hf. intros j i Hok [H|[]]. apply (Hq j i Hok). congruence.
    + intros j i Hok. apply (Hv j i 0%nat (dst j i) Hok). simpl. lia.
Qed.

(** ** Pointer-walking loops as counted iteration *)

Definition at_ (cur : list ptr) (strides : list Z) (k : Z) : list ptr :=
  map (fun ps => padd (fst ps) (k * snd ps)) (combine cur strides).

Lemma at_0 cur : forall ss, length cur = length ss -> at_ cur ss 0 = cur.
Proof.
  induction cur as [|c cur IH]; intros [|s ss] H; simpl in *; try lia; auto.
  unfold at_ in *. simpl. rewrite padd_0. f_equal. apply IH. lia.
Qed.

Lemma advance_at cur : forall ss k, advance (at_ cur ss k) ss = at_ cur ss (k + 1).
Proof.
  induction cur as [|c cur IH]; intros [|s ss] k; auto.
  unfold advance, at_ in *. cbn [combine map fst snd]. rewrite padd_padd.
  f_equal; [f_equal; lia|apply IH].
Qed.

Lemma walk_iterM {E T} (n : Z) N c cur s ss pend (body : list ptr -> T -> res E T) t :
  s <> 0 -> 0 <= n <= N -> pend = padd c (n * s) -> length cur = length ss ->
  walk N (c :: cur) (s :: ss) pend body t
  = iterM (Z.to_nat n) 0 (fun k => body (at_ (c :: cur) (s :: ss) k)) t.
Proof.
  intros Hs Hn -> Hl. unfold walk.
  replace (c :: cur, t) with (at_ (c :: cur) (s :: ss) 0, t)
    by (rewrite at_0 by (simpl; lia); reflexivity).
  set (mk := fun (k : Z) (t : T) => (at_ (c :: cur) (s :: ss) k, t)).
  change (at_ (c :: cur) (s :: ss) 0, t) with (mk 0 t).
  rewrite (@loop_iterM E _ T mk _ _ (fun k t => body (at_ (c :: cur) (s :: ss) k) t) (Z.to_nat n)).
  - rewrite bind_assoc. cbn [bind snd mk]. apply bind_ok_r.
  - intros k t' Hk. unfold mk. cbn [fst at_ combine map nth snd].
    rewrite ptr_eqb_padd. destruct (Z.eqb_spec (k * s) (n * s)); auto. nia.
  - intros t'. unfold mk. cbn [fst at_ combine map nth snd].
    rewrite ptr_eqb_padd. replace (0 + Z.of_nat (Z.to_nat n)) with n by lia.
    rewrite Z.eqb_refl. reflexivity.
  - intros k t' Hk. unfold mk. cbn [fst snd]. rewrite advance_at. reflexivity.
  - unfold fuel_of. lia.
Qed.

(** Addresses visited by two nested pointer loops: each pointer has a start, a row stride
    and a column stride. *)
Definition cells (L : list (ptr * Z * Z)) (j i : Z) : list ptr :=
  map (fun q => padd (fst (fst q)) (j * snd (fst q) + i * snd q)) L.

Fixpoint zip3 (ps : list ptr) (rs cs : list Z) : list (ptr * Z * Z) :=
  match ps, rs, cs with
  | p :: ps', r :: rs', c :: cs' => (p, r, c) :: zip3 ps' rs' cs'
  | _, _, _ => []
  end.

Lemma at_at ps : forall rs cs j i, at_ (at_ ps rs j) cs i = cells (zip3 ps rs cs) j i.
Proof.
  induction ps as [|p ps IH]; intros [|r rs] [|c cs] j i; auto.
  unfold at_, cells in *. cbn [combine map zip3 fst snd]. rewrite padd_padd.
  f_equal. apply IH.
Qed.

Lemma walk2_iterM {E T} (h w : Z) H W p ps r rs c cs hend wend (body : list ptr -> T -> res E T) t :
  r <> 0 -> c <> 0 -> 0 <= h <= H -> 0 <= w <= W ->
  hend = padd p (h * r) -> wend = w * c ->
  length ps = length rs -> length ps = length cs ->
  walk H (p :: ps) (r :: rs) hend
    (fun cur t => walk W cur (c :: cs) (padd (nth 0 cur nullp) wend) body t) t
  = iterM (Z.to_nat h) 0 (fun j => iterM (Z.to_nat w) 0 (fun i =>
      body (cells (zip3 (p :: ps) (r :: rs) (c :: cs)) j i))) t.
Proof.
  intros Hr Hc Hh Hw -> -> Hl1 Hl2.
  rewrite (walk_iterM h) by (auto; lia).
  apply iterM_ext. intros j s _.
  remember (at_ (p :: ps) (r :: rs) j) as cur eqn:Ecur.
  assert (Hcur : cur = padd p (j * r) :: at_ ps rs j) by (subst; reflexivity).
  rewrite Hcur. cbn [nth].
  rewrite (walk_iterM w) by (auto; unfold at_; rewrite map_length, combine_length; lia).
  apply iterM_ext. intros i u _.
  rewrite <- Hcur, Ecur, at_at. reflexivity.
Qed.

(** ** Miscellaneous *)

Lemma moves_gstep {E} : forall (l : list (ptr * ptr)) (m : mem),
  (forall d s, In (d, s) l -> inb m d = true /\ inb m s = true) ->
  (* no source is written by an earlier move *)
  (forall l1 d s l2, l = l1 ++ (d, s) :: l2 -> ~ In s (map fst l1)) ->
  @moves E m l = gstep (map snd l) (map fst l) (fun vs => Ok vs) m.
Proof.
  intros l m Hin Hno.
  unfold gstep. rewrite loads_ok.
  2:{ intros p Hp. apply in_map_iff in Hp as ((d & s) & <- & Hp). apply (Hin d s Hp). }
  cbn [bind].
  assert (Hgen : forall (l : list (ptr * ptr)) (m0 m : mem), same_len m0 m ->
    (forall d s, In (d, s) l -> inb m d = true /\ inb m s = true) ->
    (forall d s, In (d, s) l -> get m s = get m0 s) ->
    (forall l1 d s l2, l = l1 ++ (d, s) :: l2 -> ~ In s (map fst l1)) ->
    @moves E m l = stores m (map fst l) (map (get m0) (map snd l))).
  { clear. induction l as [|[d s] l IH]; intros m0 m Hsl Hin Hg Hno; auto.
    cbn [moves map fst snd stores].
    destruct (Hin d s) as [Hd Hs]; [left; auto|].
    rewrite (load_ok m s Hs). cbn [bind]. rewrite (Hg d s) by (left; auto).
    rewrite store_ok by assumption. cbn [bind].
    apply (IH m0).
    - intros b. rewrite len_upd. apply Hsl.
    - intros d' s' H. rewrite !inb_upd. apply Hin. right; auto.
    - intros d' s' H. rewrite get_upd_other.
      + apply (Hg d'). right; auto.
      + apply in_split in H as (l1 & l2 & ->).
        specialize (Hno ((d, s) :: l1) d' s' l2 eq_refl). simpl in Hno.
        intros ->. apply Hno. left; reflexivity.
    - intros l1 d' s' l2 El H. apply (Hno ((d, s) :: l1) d' s' l2).
      + rewrite El. reflexivity.
      + right. assumption. }
  apply Hgen; auto using same_len_refl.
Qed.

(** Results that are either [Ok] or [UB]. *)
Lemma loads_cases {E} m ps :
  (@loads E m ps = Ok (map (get m) ps) /\ forall p, In p ps -> inb m p = true)
  \/ (@loads E m ps = UB /\ exists p, In p ps /\ inb m p = false).
Proof.
  induction ps as [|p ps IH]; [left; simpl; split; [reflexivity|tauto]|].
  cbn [loads map]. unfold load. destruct (inb m p) eqn:Ep; cbn [bind].
  - destruct IH as [[-> H]|[-> (q & H1 & H2)]]; cbn [bind].
    + left. split; auto. intros q [<-|Hq]; auto.
    + right. split; auto. exists q. simpl; auto.
  - right. split; auto. exists p. simpl; auto.
Qed.

Lemma stores_ub {E} : forall ps m vs, length vs = length ps ->
  (exists p, In p ps /\ inb m p = false) -> @stores E m ps vs = UB.
Proof.
  induction ps as [|p ps IH]; intros m [|v vs] Hl (q & Hq & Hb); simpl in *; try lia; try tauto.
  unfold store. destruct (inb m p) eqn:Ep; cbn [bind]; auto.
  apply IH; [lia|]. exists q. rewrite inb_upd. split; auto.
  destruct Hq as [<-|Hq]; [congruence|assumption].
Qed.

Lemma moves_ub {E} : forall (l : list (ptr * ptr)) m,
  (exists d s, In (d, s) l /\ (inb m d = false \/ inb m s = false)) -> @moves E m l = UB.
Proof.
  induction l as [|[d s] l IH]; intros m (d' & s' & Hin & Hb); simpl in *; [tauto|].
  unfold load. destruct (inb m s) eqn:Es; cbn [bind]; auto.
  unfold store. destruct (inb m d) eqn:Ed; cbn [bind]; auto.
  apply IH. exists d', s'. rewrite !inb_upd. split; auto.
  destruct Hin as [H|H]; [|assumption].
  injection H as <- <-. destruct Hb; congruence.
Qed.

(** Moves whose sources are not overwritten by earlier moves: gather then scatter. *)
Lemma moves_gstep' {E} : forall (l : list (ptr * ptr)) (m : mem),
  (forall l1 d s l2, l = l1 ++ (d, s) :: l2 -> ~ In s (map fst l1)) ->
  @moves E m l = gstep (map snd l) (map fst l) (fun vs => Ok vs) m.
Proof.
  intros l m Hno.
  destruct (forallb (fun q => inb m (fst q) && inb m (snd q)) l) eqn:Ea.
  - apply moves_gstep; auto. rewrite forallb_forall in Ea. intros d s Hin.
    specialize (Ea _ Hin). simpl in Ea. apply andb_true_iff in Ea. tauto.
  - assert (Hex : exists d s, In (d, s) l /\ (inb m d = false \/ inb m s = false)).
    { clear Hno. induction l as [|[d s] l IH]; simpl in Ea; [discriminate|].
      destruct (inb m d) eqn:Ed; [|exists d, s; simpl; auto].
      destruct (inb m s) eqn:Es; [|exists d, s; simpl; auto].
      destruct IH as (d' & s' & H1 & H2); [assumption|]. exists d', s'. simpl; auto. }
    rewrite moves_ub by assumption.
    destruct Hex as (d & s & Hin & Hb). unfold gstep.
    destruct (@loads_cases E m (map snd l)) as [[-> Hall]|[-> _]]; auto.
    cbn [bind]. symmetry. apply stores_ub; [rewrite !map_length; reflexivity|].
    exists d. split; [apply in_map_iff; exists (d, s); auto|].
    destruct Hb as [Hb|Hb]; auto.
    rewrite Hall in Hb; [discriminate|]. apply in_map_iff. exists (d, s); auto.
Qed.

Lemma memset_iterM {E} n : forall (m : mem) (d : ptr) v k,
  @memset E m (padd d k) v (Z.of_nat n) = iterM n k (fun i m => store m (padd d i) v) m.
Proof.
  intros m d v k. unfold memset. rewrite Nat2Z.id. revert m k.
  induction n as [|n IH]; intros m k; [reflexivity|].
  cbn [span repeat stores iterM].
  apply bind_ext. intros m' _. rewrite padd_padd. apply IH.
Qed.

Lemma moves_iterM {E} n : forall (m : mem) (d s : ptr) k,
  @moves E m (combine (span (padd d k) n) (span (padd s k) n))
  = iterM n k (fun i => sstep [padd s i] (padd d i) (fun vs => Ok (nth 0 vs 0))) m.
Proof.
  induction n as [|n IH]; intros m d s k; [reflexivity|].
  cbn [span combine moves iterM]. unfold sstep at 1. cbn [loads]. rewrite !bind_assoc.
  apply bind_ext. intros v _. cbn [bind nth]. apply bind_ext. intros m' _.
  rewrite !padd_padd. apply IH.
Qed.

Lemma map_fst_combine {A B} (l : list A) : forall (l' : list B),
  length l = length l' -> map fst (combine l l') = l.
Proof. induction l; intros [|b l'] H; simpl in *; try lia; auto. f_equal. apply IHl. lia. Qed.
Lemma map_snd_combine {A B} (l : list A) : forall (l' : list B),
  length l = length l' -> map snd (combine l l') = l'.
Proof. induction l; intros [|b l'] H; simpl in *; try lia; auto. f_equal. apply IHl. lia. Qed.

(** memcpy between non-overlapping ranges is a sequence of single-element copies. *)
Lemma memcpy_iterM {E} n (m : mem) (d s : ptr) :
  overlaps d s (Z.of_nat n) = false ->
  @memcpy E m d s (Z.of_nat n)
  = iterM n 0 (fun i => sstep [padd s i] (padd d i) (fun vs => Ok (nth 0 vs 0))) m.
Proof.
  intros Ho. unfold memcpy. rewrite Ho. rewrite Nat2Z.id.
  rewrite <- moves_iterM. rewrite !padd_0.
  rewrite moves_gstep'.
  - rewrite map_fst_combine, map_snd_combine by (rewrite !span_length; reflexivity). reflexivity.
  - intros l1 d' s' l2 El Hin.
    assert (H1 : In s' (span s n)).
    { apply (in_combine_r (span d n) (span s n) d'). rewrite El. apply in_or_app. simpl; auto. }
    assert (H2 : In s' (span d n)).
    { apply in_map_iff in Hin as ((d2 & s2) & <- & Hin). cbn [fst].
      apply (in_combine_l (span d n) (span s n) d2 s2). rewrite El. apply in_or_app. auto. }
    apply span_In in H1 as (i & Hi & E1). apply span_In in H2 as (i' & Hi' & E2).
    subst s'. unfold overlaps in Ho. unfold padd in E2. injection E2 as Eb Eo.
    rewrite Eb, Z.eqb_refl in Ho. cbn [andb] in Ho. apply Z.ltb_ge in Ho. lia.
Qed.

Lemma overlaps_false d s n :
  (forall i i', 0 <= i < n -> 0 <= i' < n -> padd d i <> padd s i') -> overlaps d s n = false.
Proof.
  intros H. unfold overlaps. destruct (Z.eqb_spec (fst d) (fst s)) as [Eb|]; auto. cbn [andb].
  apply Z.ltb_ge. destruct (Z_lt_le_dec (Z.abs (snd d - snd s)) n) as [Hlt|]; [exfalso|assumption].
  destruct (Z_le_gt_dec (snd d) (snd s)).
  - apply (H (snd s - snd d) 0); try lia. unfold padd. f_equal; lia.
  - apply (H 0 (snd d - snd s)); try lia. unfold padd. f_equal; lia.
Qed.
