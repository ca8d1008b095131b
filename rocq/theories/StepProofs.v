(** Sequences of vector steps: a step reads some addresses and then writes some others. *)
From Coq Require Import ZArith List Bool Lia.
From Verif Require Import Base Image Spec BaseProofs ImgFun ImgLemmas.
Import ListNotations.
Open Scope Z_scope.

Ltac Zify.zify_post_hook ::= Z.div_mod_to_equations.

(** Started in any memory that agrees with [m] on [srcs], the program returns and performs
    exactly the writes [W] (pairs of address and value). *)
Definition step_ok {E} (prog : mem -> res E mem) (m : mem) (srcs : list ptr) (W : list (ptr * Z)) : Prop :=
  forall t, same_len m t -> (forall s, In s srcs -> get t s = get m s) ->
  exists t', prog t = Ok t' /\ same_len t t' /\
    (forall q, ~ In q (map fst W) -> get t' q = get t q) /\
    (forall p v, In (p, v) W -> get t' p = v).

Theorem scatter_prog {E} (prog : Z -> mem -> res E mem) (srcs : Z -> list ptr) (W : Z -> list (ptr * Z))
    (n : nat) (m : mem) :
  (forall k, 0 <= k < Z.of_nat n -> step_ok (prog k) m (srcs k) (W k)) ->
  (forall j k p, 0 <= j < k -> k < Z.of_nat n -> In p (map fst (W j)) -> In p (srcs k) -> False) ->
  exists m', iterM n 0 prog m = Ok m' /\ same_len m m' /\
    (forall q, (forall k, 0 <= k < Z.of_nat n -> ~ In q (map fst (W k))) -> get m' q = get m q) /\
    (forall k p v, 0 <= k < Z.of_nat n -> In (p, v) (W k) ->
       (forall k', k < k' < Z.of_nat n -> ~ In p (map fst (W k'))) -> get m' p = v).
Proof.
  intros Hok Hsd.
  destruct (@iterM_inv E mem
    (fun k t => same_len m t /\
      (forall q, (forall j, 0 <= j < k -> ~ In q (map fst (W j))) -> get t q = get m q) /\
      (forall j p v, 0 <= j < k -> In (p, v) (W j) ->
         (forall k', j < k' < k -> ~ In p (map fst (W k'))) -> get t p = v))
    prog n 0 m) as (m' & He & Hl & Hf & Hv).
  - split; [apply same_len_refl|]. split; [auto|]. intros; lia.
  - intros k t Hk (Hl & Hf & Hv). cbn [Z.add] in Hk.
    destruct (Hok k ltac:(lia) t Hl) as (t' & He & Hl' & Hf' & Hv').
    + intros s Hs. apply Hf. intros j Hj Hin. eapply (Hsd j k s); eauto; lia.
    + exists t'. split; [exact He|]. split; [eapply same_len_trans; eauto|]. split.
      * intros q Hq. rewrite Hf'.
        -- apply Hf. intros j Hj. apply Hq. lia.
        -- apply Hq. lia.
      * intros j p v Hj Hin Hlast. destruct (Z.eq_dec j k) as [->|Hne].
        -- apply Hv'; auto.
        -- rewrite Hf'.
           ++ apply (Hv j); auto; try lia. intros k' Hk'. apply Hlast. lia.
           ++ apply Hlast. lia.
  - cbn [Z.add] in *. exists m'. auto.
Qed.

(** Lexicographic order of steps. *)
Definition before (j q j' q' : Z) : Prop := j < j' \/ (j = j' /\ q < q').

Theorem rows_prog {E} (prog : Z -> Z -> mem -> res E mem) (srcs : Z -> Z -> list ptr)
    (W : Z -> Z -> list (ptr * Z)) (h N : nat) (m : mem) :
  let ok j q := 0 <= j < Z.of_nat h /\ 0 <= q < Z.of_nat N in
  (forall j q, ok j q -> step_ok (prog j q) m (srcs j q) (W j q)) ->
  (forall j q j' q' p, ok j q -> ok j' q' -> before j q j' q' ->
     In p (map fst (W j q)) -> In p (srcs j' q') -> False) ->
  exists m', iterM h 0 (fun j => iterM N 0 (prog j)) m = Ok m' /\ same_len m m' /\
    (forall a, (forall j q, ok j q -> ~ In a (map fst (W j q))) -> get m' a = get m a) /\
    (forall j q p v, ok j q -> In (p, v) (W j q) ->
       (forall j' q', ok j' q' -> before j q j' q' -> ~ In p (map fst (W j' q'))) -> get m' p = v).
Proof.
  intros ok Hok Hsd. set (B := Z.of_nat N).
  assert (Hin : forall k, 0 <= k < Z.of_nat (h * N) -> ok (k / B) (k mod B)).
  { intros k Hk. unfold ok. subst B.
    assert (0 < Z.of_nat N) by nia.
    pose proof (Z.mod_pos_bound k (Z.of_nat N)).
    pose proof (Z.div_mod k (Z.of_nat N)).
    split; [|lia]. split; [apply Z.div_pos; lia|]. apply Z.div_lt_upper_bound; nia. }
  assert (Hbef : forall k k', 0 <= k < k' -> 0 < B -> before (k / B) (k mod B) (k' / B) (k' mod B)).
  { intros k k' Hk HB. unfold before. pose proof (Z.div_mod k B). pose proof (Z.div_mod k' B).
    pose proof (Z.mod_pos_bound k B HB). pose proof (Z.mod_pos_bound k' B HB). nia. }
  destruct (@scatter_prog E (fun k => prog (k / B) (k mod B)) (fun k => srcs (k / B) (k mod B))
              (fun k => W (k / B) (k mod B)) (h * N) m) as (m' & He & Hl & Hf & Hv).
  - intros k Hk. apply Hok. apply Hin; auto.
  - intros j k p Hj Hk H1 H2. apply (Hsd (j / B) (j mod B) (k / B) (k mod B) p); auto.
    + apply Hin. lia.
    + apply Hin. lia.
    + apply Hbef; [lia|]. subst B. nia.
  - exists m'. split; [|split; [exact Hl|split]].
    + rewrite <- He.
      pose proof (@iterM_nest E mem N h (fun k => prog (k / B) (k mod B)) 0 m) as Hn.
      cbn [Z.mul] in Hn. rewrite <- Hn.
      apply iterM_ext. intros j s Hj. apply iterM_ext. intros i t Hi.
      destruct (divmod_flat B j i) as [E1 E2]; [subst B; lia|].
      fold B. rewrite E1, E2. reflexivity.
    + intros a Ha. apply Hf. intros k Hk. apply Ha. apply Hin; auto.
    + intros j q p v [Hj Hq] Hp Hlast.
      destruct (divmod_flat B j q) as [E1 E2]; [subst B; lia|].
      apply (Hv (j * B + q)).
      * subst B. nia.
      * rewrite E1, E2. assumption.
      * intros k' Hk'. apply Hlast.
        -- apply Hin. subst B. nia.
        -- pose proof (Hbef (j * B + q) k') as Hb. rewrite E1, E2 in Hb. apply Hb; subst B; nia.
Qed.

(** A packet loop followed by a loop over single units. *)
Lemma iterM_two {E S} (a b : nat) (f g : Z -> S -> res E S) s :
  bind (iterM a 0 f s) (iterM b 0 g)
  = iterM (a + b) 0 (fun k => if k <? Z.of_nat a then f k else g (k - Z.of_nat a)) s.
Proof.
  rewrite iterM_app.
  rewrite (iterM_ext a 0 f (fun k => if k <? Z.of_nat a then f k else g (k - Z.of_nat a))).
  2:{ intros i t Hi. destruct (Z.ltb_spec i (Z.of_nat a)); [reflexivity|lia]. }
  apply bind_ext. intros t _. cbn [Z.add].
  transitivity (iterM b (0 + Z.of_nat a) (fun k => if k <? Z.of_nat a then f k else g (k - Z.of_nat a)) t);
    [|reflexivity].
  rewrite iterM_shift. apply iterM_ext. intros i u Hi.
  destruct (Z.ltb_spec (i + Z.of_nat a) (Z.of_nat a)); [lia|].
  f_equal. lia.
Qed.

(** [start, start + 1, ...], [n] numbers *)
Fixpoint zseq (start : Z) (n : nat) : list Z :=
  match n with O => [] | S n' => start :: zseq (start + 1) n' end.

Lemma zseq_In n : forall s k, In k (zseq s n) <-> s <= k < s + Z.of_nat n.
Proof.
  induction n as [|n IH]; intros s k; cbn [zseq In]; [lia|]. rewrite IH. lia.
Qed.

Lemma zseq_length n : forall s, length (zseq s n) = n.
Proof. induction n; intros; cbn [zseq length]; auto. Qed.

Lemma zseq_nth n : forall s i d, (i < n)%nat -> nth i (zseq s n) d = s + Z.of_nat i.
Proof.
  induction n as [|n IH]; intros s i d Hi; [lia|]. destruct i as [|i]; cbn [zseq nth]; [lia|].
  rewrite IH by lia. lia.
Qed.

Lemma zseq_NoDup n : forall s, NoDup (zseq s n).
Proof.
  induction n as [|n IH]; intros s; cbn [zseq]; constructor; auto. rewrite zseq_In. lia.
Qed.

Lemma span_zseq n : forall p, span p n = map (fun i => padd p i) (zseq 0 n).
Proof.
  assert (H : forall p s, span (padd p s) n = map (fun i => padd p i) (zseq s n)).
  { induction n as [|n IH]; intros p s; cbn [span zseq map]; auto.
    rewrite padd_padd. f_equal. apply IH. }
  intros p. rewrite <- (padd_0 p) at 1. apply H.
Qed.

Lemma in_map_fst {A B} (l : list (A * B)) p : In p (map fst l) <-> exists v, In (p, v) l.
Proof.
  rewrite in_map_iff. split.
  - intros ([p' v] & <- & H). eauto.
  - intros (v & H). exists (p, v). auto.
Qed.

(** Rows of units: [cnt] packets of [n] units, then [tail] single units.  Unit ([j],[i]) reads
    [ic j i] and writes [wr j i].  A packet may also write addresses [extra] of later units. *)
Theorem units_rows {E} (h cnt tail n : nat) (ic : Z -> Z -> list ptr) (wr : Z -> Z -> list (ptr * Z))
    (extra : Z -> Z -> list (ptr * Z)) (packet single : Z -> Z -> mem -> res E mem) (m : mem) :
  let U := Z.of_nat (cnt * n + tail) in
  let N := Z.of_nat n in
  let ok j i := 0 <= j < Z.of_nat h /\ 0 <= i < U in
  (forall j q, 0 <= j < Z.of_nat h -> 0 <= q < Z.of_nat cnt ->
     step_ok (packet j q) m (flat_map (ic j) (zseq (q * N) n)) (flat_map (wr j) (zseq (q * N) n) ++ extra j q)) ->
  (forall j k, 0 <= j < Z.of_nat h -> 0 <= k < Z.of_nat tail ->
     step_ok (single j k) m (ic j (Z.of_nat cnt * N + k)) (wr j (Z.of_nat cnt * N + k))) ->
  (forall j i j' i' p, ok j i -> ok j' i' -> In p (map fst (wr j i)) -> In p (map fst (wr j' i')) ->
     j = j' /\ i = i') ->
  (forall j i j' i' p, ok j i -> ok j' i' -> In p (map fst (wr j i)) -> In p (ic j' i') -> j = j' /\ i = i') ->
  (forall j q p, 0 <= j < Z.of_nat h -> 0 <= q < Z.of_nat cnt -> In p (map fst (extra j q)) ->
     (exists i, (q + 1) * N <= i < U /\ In p (map fst (wr j i))) /\
     (forall j' i', ok j' i' -> ~ In p (ic j' i'))) ->
  exists m', iterM h 0 (fun j t => bind (iterM cnt 0 (packet j) t) (iterM tail 0 (single j))) m = Ok m' /\
    same_len m m' /\
    (forall a, (forall j i, ok j i -> ~ In a (map fst (wr j i))) -> get m' a = get m a) /\
    (forall j i p v, ok j i -> In (p, v) (wr j i) -> get m' p = v).
Proof.
  intros U N ok Hpack Hsing Hinj Hhaz Hext.
  set (C := Z.of_nat cnt).
  set (prog := fun j k => if k <? C then packet j k else single j (k - C)).
  set (src := fun j k => if k <? C then flat_map (ic j) (zseq (k * N) n) else ic j (C * N + (k - C))).
  set (W := fun j k => if k <? C then flat_map (wr j) (zseq (k * N) n) ++ extra j k else wr j (C * N + (k - C))).
  (* the units of a step *)
  set (lo := fun k => if k <? C then k * N else C * N + (k - C)).
  set (hi := fun k => if k <? C then k * N + N else C * N + (k - C) + 1).
  assert (HU : U = C * N + Z.of_nat tail) by (subst U C N; lia).
  assert (HN : 0 <= N) by (subst N; lia). assert (HC : 0 <= C) by (subst C; lia).
  assert (Hlohi : forall k, 0 <= k < Z.of_nat (cnt + tail) -> 0 <= lo k /\ hi k <= U).
  { intros k Hk. unfold lo, hi. destruct (Z.ltb_spec k C); subst C; nia. }
  assert (Hord : forall k k', 0 <= k < k' -> k' < Z.of_nat (cnt + tail) -> hi k <= lo k').
  { intros k k' Hk Hk'. unfold lo, hi. destruct (Z.ltb_spec k C); destruct (Z.ltb_spec k' C); subst C; nia. }
  assert (Hsrc : forall j k p, In p (src j k) -> exists i, lo k <= i < hi k /\ In p (ic j i)).
  { intros j k p. unfold src, lo, hi. destruct (Z.ltb_spec k C).
    - rewrite in_flat_map. intros (i & Hi & Hp). apply zseq_In in Hi. exists i. split; [subst N; lia|assumption].
    - intros Hp. exists (C * N + (k - C)). split; [lia|assumption]. }
  assert (HW : forall j k p, 0 <= j < Z.of_nat h -> 0 <= k < Z.of_nat (cnt + tail) -> In p (map fst (W j k)) ->
            (exists i, lo k <= i < U /\ In p (map fst (wr j i)) /\
               (i < hi k \/ (forall j' i', ok j' i' -> ~ In p (ic j' i'))))).
  { intros j k p Hj Hk. unfold W, lo, hi. destruct (Z.ltb_spec k C).
    - rewrite map_app, in_app_iff. intros [Hp|Hp].
      + apply in_map_fst in Hp as (v & Hp). apply in_flat_map in Hp as (i & Hi & Hp). apply zseq_In in Hi.
        exists i. split; [subst N; nia|]. split; [apply in_map_fst; eauto|]. left. subst N; lia.
      + destruct (Hext j k p) as ((i & Hi & Hp') & Hno); auto; [subst C; lia|].
        exists i. split; [nia|]. split; auto.
    - intros Hp. exists (C * N + (k - C)). split; [subst C; lia|]. split; auto. left. lia. }
  destruct (@rows_prog E prog src W h (cnt + tail) m) as (m' & He & Hl & Hf & Hv).
  - intros j k (Hj & Hk). unfold prog, src, W. destruct (Z.ltb_spec k C).
    + apply Hpack; auto. subst C; lia.
    + apply Hsing; auto. subst C; lia.
  - intros j k j' k' p (Hj & Hk) (Hj' & Hk') Hb H1 H2.
    apply Hsrc in H2 as (i' & Hi' & H2).
    destruct (HW j k p Hj Hk H1) as (i & Hi & Hp & Hor).
    pose proof (Hlohi k Hk). pose proof (Hlohi k' Hk').
    destruct Hor as [Hlt|Hno].
    + destruct (Hhaz j i j' i' p) as [-> ->]; auto; unfold ok; try lia.
      destruct Hb as [Hb|[_ Hb]]; [lia|].
      pose proof (Hord k k'). lia.
    + apply (Hno j' i'); auto. unfold ok. lia.
  - exists m'. split; [|split; [exact Hl|split]].
    + rewrite <- He. apply iterM_ext. intros j s Hj. rewrite iterM_two. reflexivity.
    + intros a Ha. apply Hf. intros j k (Hj & Hk) Hin.
      destruct (HW j k a Hj Hk Hin) as (i & Hi & Hp & _).
      pose proof (Hlohi k Hk). apply (Ha j i); auto. unfold ok. lia.
    + intros j i p v (Hj & Hi) Hp.
      set (k := if i <? C * N then i / N else C + (i - C * N)).
      assert (Hk : 0 <= k < Z.of_nat (cnt + tail) /\ lo k <= i < hi k /\ In (p, v) (W j k)).
      { unfold k, lo, hi, W. destruct (Z.ltb_spec i (C * N)) as [Hlt|Hge].
        - assert (HN0 : 0 < N) by nia.
          pose proof (Z.div_mod i N). pose proof (Z.mod_pos_bound i N HN0).
          assert (0 <= i / N < C) by (split; [apply Z.div_pos; lia|apply Z.div_lt_upper_bound; lia]).
          destruct (Z.ltb_spec (i / N) C); [|lia].
          split; [subst C; lia|]. split; [lia|].
          apply in_or_app. left. apply in_flat_map. exists i. split; [apply zseq_In; subst N; lia|assumption].
        - destruct (Z.ltb_spec (C + (i - C * N)) C); [lia|].
          replace (C * N + (C + (i - C * N) - C)) with i by lia.
          split; [subst C; lia|]. split; [lia|assumption]. }
      destruct Hk as (Hk & Hb & HpW).
      apply (Hv j k p v); [split; auto|exact HpW|].
      intros j' k' (Hj' & Hk') Hbef Hin.
      destruct (HW j' k' p Hj' Hk' Hin) as (i' & Hi' & Hp' & _).
      pose proof (Hlohi k' Hk').
      destruct (Hinj j i j' i' p) as [-> ->]; auto; unfold ok; try lia.
      { apply in_map_fst. eauto. }
      destruct Hbef as [Hbef|[_ Hbef]]; [lia|].
      pose proof (Hord k k'). lia.
Qed.

(** ** Row merging *)

Lemma merge_cells W h ims w' h' :
  0 < W < W32 -> 0 < h -> OptimiseRoi W h ims = (w', h') ->
  0 < w' < W32 /\ 0 < h' <= h /\ W <= w' /\
  (forall j i, 0 <= j < h' -> 0 <= i < w' -> exists j0 i0, 0 <= j0 < h /\ 0 <= i0 < W /\
     forall im, In im ims -> j * irs im + i = j0 * irs im + i0) /\
  (forall j0 i0, 0 <= j0 < h -> 0 <= i0 < W -> exists j i, 0 <= j < h' /\ 0 <= i < w' /\
     forall im, In im ims -> j * irs im + i = j0 * irs im + i0) /\
  (forall im j i j' i', In im ims -> W <= irs im -> 0 <= j < h' -> 0 <= i < w' -> 0 <= j' < h' -> 0 <= i' < w' ->
     j * irs im + i = j' * irs im + i' -> j = j' /\ i = i').
Proof.
  intros HW Hh Ho.
  destruct (OptimiseRoi_cases W h ims) as [E1|(E1 & Hlt & Hrs)]; try lia;
    rewrite E1 in Ho; injection Ho as <- <-.
  - split; [lia|]. split; [lia|]. split; [lia|]. split; [|split].
    + intros j i Hj Hi. exists j, i. auto.
    + intros j i Hj Hi. exists j, i. auto.
    + intros im j i j' i' _ Hle Hj Hi Hj' Hi' He. assert (j = j') by nia. subst. lia.
  - split; [nia|]. split; [lia|]. split; [nia|]. split; [|split].
    + intros j i Hj Hi. exists (i / W), (i mod W).
      pose proof (Z.mod_pos_bound i W). pose proof (Z.div_mod i W).
      split; [split; [apply Z.div_pos; lia|apply Z.div_lt_upper_bound; nia]|]. split; [lia|].
      intros im Him. rewrite (Hrs im Him). nia.
    + intros j0 i0 Hj Hi. exists 0, (j0 * W + i0). split; [lia|]. split; [nia|].
      intros im Him. rewrite (Hrs im Him). lia.
    + intros im j i j' i' Him _ Hj Hi Hj' Hi' He. lia.
Qed.
