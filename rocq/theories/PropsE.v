(** Properties of the thread pool: C52 to C55, C86, C87. *)
From Coq Require Import List Arith Bool Lia Permutation.
From Verif Require Import Pool PoolProofs PoolLive PoolHang.
Import ListNotations.

(** ** Vocabulary *)
(** Tasks of the latest group that were called, and that ended (log: newest event first). *)
Fixpoint called (l : list ev) : list nat :=
  match l with
  | [] | EStart _ :: _ => []
  | EBegin t :: r => t :: called r
  | _ :: r => called r
  end.
Fixpoint ended (l : list ev) : list nat :=
  match l with
  | [] | EStart _ :: _ => []
  | EEnd t _ :: r => t :: ended r
  | _ :: r => ended r
  end.
(** Its size. *)
Fixpoint group_size (l : list ev) : nat := match l with [] => 0 | EStart n :: _ => n | _ :: r => group_size r end.
(** A task threw since the last wait. *)
Fixpoint failed (l : list ev) : bool :=
  match l with
  | [] | EWaited _ :: _ => false
  | EEnd _ b :: r => b || failed r
  | _ :: r => failed r
  end.
Definition cancels (l : label) : Prop :=
  match l with LA Clear | LA (Remove _) | LA Stop | LC _ Destroy => True | _ => False end.
(** Executions in which no provider starts a group smaller than its previous one. *)
Definition not_smaller (s : pool) (l : label) : Prop :=
  match l with LC p (Run n) => forall x, nth_error (prs s) p = Some x -> pc x = CIdle -> tcount x <= n | _ => True end.
Fixpoint growing (s : pool) (ls : list label) : Prop :=
  match ls with
  | [] => True
  | l :: t => not_smaller s l /\ forall s', step s l = Next s' -> growing s' t
  end.
Definition no_cancel (ls : list label) : Prop := Forall (fun l => ~ cancels l) ls.

(** Executable versions, for the examples. *)
Definition not_smallerb (s : pool) (l : label) : bool :=
  match l with
  | LC p (Run n) => match nth_error (prs s) p with
                    | Some x => match pc x with CIdle => tcount x <=? n | _ => true end
                    | None => true end
  | _ => true
  end.
Fixpoint growingb (s : pool) (ls : list label) : bool :=
  match ls with
  | [] => true
  | l :: t => not_smallerb s l && match step s l with Next s' => growingb s' t | _ => true end
  end.
Lemma growingb_ok : forall ls s, growingb s ls = true -> growing s ls.
Proof.
  induction ls as [|l t IH]; intros s H; cbn [growing growingb] in *; [exact I|]. apply andb_prop in H as [H1 H2]. split.
  - destruct l as [| |p cmd| | |]; cbn in *; auto. destruct cmd as [n| |]; auto. intros x Hx Hc. rewrite Hx, Hc in H1. apply Nat.leb_le. exact H1.
  - intros s' E. rewrite E in H2. auto.
Qed.
Definition cancelsb (l : label) : bool := match l with LA Clear | LA (Remove _) | LA Stop | LC _ Destroy => true | _ => false end.
Lemma no_cancelb ls : forallb (fun l => negb (cancelsb l)) ls = true -> no_cancel ls.
Proof.
  intros H. apply Forall_forall. intros l Hl. rewrite forallb_forall in H. specialize (H l Hl).
  destruct l as [| |p []| |[]|]; cbn in *; try discriminate; auto.
Qed.
Lemma next_inv (r : sres) (P : pool -> bool) : match r with Next s => P s | _ => false end = true -> exists s, r = Next s /\ P s = true.
Proof. destruct r as [| |s]; intros H; try discriminate H. eauto. Qed.

(** ** From executions to the invariant *)
Lemma ok_of s l : ~ cancels l -> not_smaller s l -> ok_label s l.
Proof. intros C S. destruct l as [| |p [n| |]| |[n| |q|]|]; cbn in *; auto; destruct (C I). Qed.
Lemma run_inv : forall ls s, ginv s -> winv s -> no_cancel ls -> growing s ls ->
  match run s ls with Undef => False | Blocked => True | Next s' => ginv s' /\ winv s' end.
Proof.
  induction ls as [|l t IH]; intros s G V C S; cbn [run]; [auto|]. inversion C as [|? ? C1 C2]; subst. destruct S as (S1 & S2).
  pose proof (ok_of s l C1 S1) as O. pose proof (step_ok s l G O) as K.
  destruct (step s l) as [| |s'] eqn:E; [exact I|contradiction|]. apply IH; auto. apply (winv_step s l s' G V O E).
Qed.
Lemma reach_inv n ls s : no_cancel ls -> growing (sinit n) ls -> run (sinit n) ls = Next s -> ginv s /\ winv s.
Proof. intros C S E. pose proof (run_inv ls (sinit n) (ginv_init n) (winv_init n) C S) as K. rewrite E in K. exact K. Qed.

Lemma called_count t l : count_occ Nat.eq_dec (called l) t = begins t l.
Proof. induction l as [|[] r IH]; cbn; auto. destruct (Nat.eq_dec t0 t), (Nat.eqb_spec t0 t); cbn; auto; try contradiction. Qed.
Lemma ended_count t l : count_occ Nat.eq_dec (ended l) t = ends t l.
Proof. induction l as [|[] r IH]; cbn; auto. destruct (Nat.eq_dec t0 t), (Nat.eqb_spec t0 t); cbn; auto; try contradiction. Qed.
Lemma group_size_eq l : group_size l = gsize l.
Proof. induction l as [|[] r IH]; cbn; auto. Qed.
Lemma failed_eq l : failed l = threw_since l.
Proof. induction l as [|[] r IH]; cbn; auto. Qed.
Lemma count_perm l n : (forall t, count_occ Nat.eq_dec l t = b2n (t <? n)) -> Permutation l (seq 0 n).
Proof.
  intros H. apply (Permutation_count_occ Nat.eq_dec). intros t. rewrite H.
  destruct (Nat.ltb_spec t n).
  - symmetry. apply NoDup_count_occ'; [apply seq_NoDup|]. apply in_seq. lia.
  - symmetry. apply count_occ_not_In. rewrite in_seq. lia.
Qed.
Lemma log_done_perm l : log_done l -> Permutation (called l) (seq 0 (group_size l)) /\ Permutation (ended l) (seq 0 (group_size l)).
Proof.
  intros H. split; apply count_perm; intros t; rewrite ?called_count, ?ended_count, group_size_eq; apply H.
Qed.
Lemma waits_in : forall l newer ok older, waits_ok l -> l = newer ++ EWaited ok :: older -> log_done older /\ ok = negb (threw_since older).
Proof.
  induction l as [|e l IH]; intros [|a newer] ok older W E; cbn in E; try discriminate; injection E as -> E; cbn in W.
  - subst l. apply W.
  - eapply IH; [apply W|exact E].
Qed.

(** ** C52: exactly once, and wait returns only when all are done *)
(** Whenever a wait of a provider has returned: at that moment every task of the latest group
    had been called once and had ended once, and the answer says whether one threw. *)
Definition C52_claim : Prop := forall np ls s p x newer ok older, no_cancel ls ->
  run (sinit np) ls = Next s -> nth_error (prs s) p = Some x -> plog x = newer ++ EWaited ok :: older ->
  Permutation (called older) (seq 0 (group_size older)) /\ Permutation (ended older) (seq 0 (group_size older)) /\
  ok = negb (failed older).
Theorem C52_exactly_once_partial : forall np ls s p x newer ok older, no_cancel ls -> growing (sinit np) ls ->
  run (sinit np) ls = Next s -> nth_error (prs s) p = Some x -> plog x = newer ++ EWaited ok :: older ->
  Permutation (called older) (seq 0 (group_size older)) /\ Permutation (ended older) (seq 0 (group_size older)) /\
  ok = negb (failed older).
Proof.
  intros np ls s p x newer ok older C S E Hx Hl. destruct (reach_inv np ls s C S E) as (G & _).
  destruct (waits_in _ _ _ _ (pi_log _ _ _ _ (g_prov s G p x Hx)) Hl) as (D & R).
  destruct (log_done_perm _ D) as (P1 & P2). rewrite failed_eq. auto.
Qed.
(** At every moment: no task of the group was called twice and none outside 0..n-1 was called. *)
Theorem C52_at_most_once_partial : forall np ls s p x, no_cancel ls -> growing (sinit np) ls ->
  run (sinit np) ls = Next s -> nth_error (prs s) p = Some x ->
  NoDup (called (plog x)) /\ NoDup (ended (plog x)) /\ forall t, In t (called (plog x)) -> t < group_size (plog x).
Proof.
  intros np ls s p x C S E Hx. destruct (reach_inv np ls s C S E) as (G & _). destruct (g_prov s G p x Hx) as [A B L D].
  assert (K : forall t, begins t (plog x) <= b2n (t <? gsize (plog x)) /\ ends t (plog x) <= 1).
  { intros t. assert (Q : log_done (plog x) -> begins t (plog x) <= b2n (t <? gsize (plog x)) /\ ends t (plog x) <= 1).
    { intros H. destruct (H t) as (H1 & H2). rewrite H1, H2. destruct (t <? gsize (plog x)); cbn [b2n]; lia. }
    destruct (running x); [|apply Q; apply D]. destruct D as (D1 & D2 & D3). destruct (pc x); try contradiction; try (apply Q; apply D3).
    all: destruct D3 as (D3 & D4 & D5 & D6); destruct (D6 t) as (D7 & D8); rewrite D5;
      destruct (Nat.ltb_spec t (given x)), (Nat.ltb_spec t (tcount x)); cbn [b2n] in *; lia. }
  repeat split.
  - apply (NoDup_count_occ Nat.eq_dec). intros t. rewrite called_count. destruct (K t) as (K1 & _). revert K1; destruct (t <? gsize (plog x)); cbn [b2n]; lia.
  - apply (NoDup_count_occ Nat.eq_dec). intros t. rewrite ended_count. apply K.
  - intros t Ht. apply (count_occ_In Nat.eq_dec) in Ht. rewrite called_count in Ht. rewrite group_size_eq. destruct (K t) as (K1 & _).
    destruct (Nat.ltb_spec t (gsize (plog x))); [assumption|cbn [b2n] in K1; lia].
Qed.
(** The model never indexes _run or _exit out of range, nor follows a dangling provider pointer. *)
Theorem C52_no_undefined_partial : forall np ls, no_cancel ls -> growing (sinit np) ls -> run (sinit np) ls <> Undef.
Proof. intros np ls C S E. pose proof (run_inv ls (sinit np) (ginv_init np) (winv_init np) C S) as K. rewrite E in K. exact K. Qed.

(** Schedules used below.  A pool of k workers, all started, provider 0 idle. *)
Definition w (i k : nat) : list label := repeat (LW i false) k.
Definition c (p k : nat) : list label := repeat (LC p Wait) k.
Definition pool1 : list label := LA (Resize 1) :: repeat (LA (Resize 0)) 4 ++ w 0 2 ++ [LA (Resize 0)].
Definition pool2 : list label := LA (Resize 2) :: repeat (LA (Resize 0)) 5 ++ w 0 1 ++ w 1 2 ++ [LA (Resize 0)].
Definition group (n : nat) : list label := LC 0 (Run n) :: c 0 6.

(** Two workers, a group of two tasks, one of which throws; then a group of three. *)
Definition sched1 : list label :=
  pool2 ++ group 2 ++ w 0 6 ++ w 1 6 ++ c 0 2 ++ w 1 1 ++ [LW 1 true] ++ w 1 3 ++ w 0 5 ++ c 0 1 ++ group 3 ++ w 0 31 ++ c 0 2.
Example C52_case : no_cancel sched1 /\ growing (sinit 1) sched1 /\
  exists s x, run (sinit 1) sched1 = Next s /\ nth_error (prs s) 0 = Some x /\
    filter (fun e => match e with EBegin _ | EEnd _ _ => false | _ => true end) (plog x) = [EWaited true; EStart 3; EWaited false; EStart 2].
Proof.
  split; [apply no_cancelb; vm_compute; reflexivity|]. split; [apply growingb_ok; vm_compute; reflexivity|].
  eexists. eexists. split; [vm_compute; reflexivity|]. split; reflexivity.
Qed.

(** The comparison at thread_pool.cpp:69 may happen after the next group set _taskCount:
    two workers, two tasks; worker 0 is preempted between lines 67 and 69; the wait returns;
    a group of one task starts; worker 0 goes on, takes 1 == 1 for the end of that group. *)
Definition sched2 : list label :=
  pool2 ++ group 2 ++ w 0 9 ++ w 1 11 ++ c 0 2 ++ group 1 ++ w 0 2 ++ c 0 2.
Theorem C52_exactly_once_refuted : ~ C52_claim.
Proof.
  intros H. destruct (next_inv (run (sinit 1) sched2) (fun s => match nth_error (prs s) 0 with
    | Some x => match plog x with EWaited true :: EStart 1 :: _ => true | _ => false end | None => false end)) as (s & E & K);
    [vm_compute; reflexivity|].
  destruct (nth_error (prs s) 0) as [x|] eqn:Hx; [|discriminate K].
  destruct (plog x) as [|[| | |[]] [|[[|[]]| | |] older]] eqn:Hl; try discriminate K.
  destruct (H 1 sched2 s 0 x [] true (EStart 1 :: older)) as (P & _); auto.
  - apply no_cancelb. vm_compute. reflexivity.
  - cbn in P. apply Permutation_nil in P. discriminate P.
Qed.
Print Assumptions C52_exactly_once_partial.
Print Assumptions C52_at_most_once_partial.
Print Assumptions C52_no_undefined_partial.
Print Assumptions C52_exactly_once_refuted.

(** ** C53: no deadlock *)
(** A group is outstanding: it was added and its provider is still running. *)
Definition outstanding (p : nat) (s : pool) : Prop :=
  exists x, nth_error (prs s) p = Some x /\ running x = true /\ forall n, pc x <> CInsert n.
Definition finished (p : nat) (s : pool) : Prop := exists x, nth_error (prs s) p = Some x /\ running x = false.
(** An outstanding group can still be finished. *)
Definition C53_claim : Prop := forall np ls s p, no_cancel ls -> run (sinit np) ls = Next s -> outstanding p s ->
  exists ls' s', run s ls' = Next s' /\ finished p s'.
(** The late comparison again; now the client waits each time and the third group, of one
    task like the second, never ends. *)
Definition sched3 : list label :=
  pool2 ++ group 2 ++ w 0 9 ++ w 1 11 ++ c 0 2 ++ group 1 ++ w 0 2 ++ c 0 2 ++ w 1 8 ++ LC 0 (Run 1) :: c 0 3 ++ w 1 3 ++ c 0 3 ++ w 1 10 ++ c 0 2.
Theorem C53_no_deadlock_refuted : ~ C53_claim.
Proof.
  intros H. destruct (next_inv (run (sinit 1) sched3) (fun s => match nth_error (prs s) 0 with
    | Some x => running x && match pc x with CSleep => true | _ => false end && (count_occ Nat.eq_dec (tasks s) 0 =? 0) && (N 0 fany (ws s) =? 0)
    | None => false end)) as (s & E & K); [vm_compute; reflexivity|].
  destruct (nth_error (prs s) 0) as [x|] eqn:Hx; [|discriminate K]. rewrite !andb_true_iff, !Nat.eqb_eq in K. destruct K as (((K1 & K2) & K3) & K4).
  assert (L : lost 0 s). { exists x. unfold awaiting. destruct (pc x); try discriminate K2. auto 10. }
  destruct (H 1 sched3 s 0) as (ls' & s' & E' & (y & Hy & R)).
  - apply no_cancelb. vm_compute. reflexivity.
  - exact E.
  - exists x. split; [exact Hx|]. split; [exact K1|]. destruct (pc x); try discriminate K2. discriminate.
  - destruct (lost_forever 0 ls' s s' L E') as (z & Hz & Rz & _). congruence.
Qed.
(** When no provider's group is smaller than its previous one: a worker can always move, ... *)
Theorem C53_progress_partial : forall np ls s p, no_cancel ls -> growing (sinit np) ls -> run (sinit np) ls = Next s -> outstanding p s ->
  exists i, forall threw, exists s', step s (LW i threw) = Next s'.
Proof.
  intros np ls s p C S E O. destruct (reach_inv np ls s C S E) as (G & V).
  destruct (Nat.eq_dec (lp p (tasks s)) 0) as [Z|Z].
  - destruct (holder_exists s p G O Z) as (i & w & Hw & Hh). exists i. apply (holder_moves s i w p G Hw Hh).
  - exists 0. apply (worker0_moves s p G V O). lia.
Qed.
(** ... and in every fair infinite execution (a worker able to move is scheduled again and
    again; the pool is not resized meanwhile) the group is finished. *)
Definition managing (l : label) : Prop := match l with LA _ | LAWake => True | _ => False end.
Theorem C53_fair_completion_partial : forall np ls (sg : nat -> pool) (la : nat -> label),
  no_cancel ls -> growing (sinit np) ls -> run (sinit np) ls = Next (sg 0) ->
  (forall k, step (sg k) (la k) = Next (sg (S k))) ->
  (forall k, ~ cancels (la k) /\ not_smaller (sg k) (la k) /\ ~ managing (la k)) ->
  (forall i k, exists k', k <= k' /\ ((exists b, la k' = LW i b) \/ ~ forall threw, exists s', step (sg k') (LW i threw) = Next s')) ->
  forall p k, outstanding p (sg k) -> exists k', k <= k' /\ finished p (sg k').
Proof.
  intros np ls sg la C S E Hs Hl Hf p k O. apply (fair_stops sg la Hs) with (p := p) (k := k); auto.
  - intros j. destruct (Hl j) as (A & B & _). apply ok_of; auto.
  - intros j. destruct (Hl j) as (_ & _ & A). destruct (la j); cbn in *; auto.
  - apply (reach_inv np ls _ C S E).
Qed.
(** A fair execution: two workers in turn, and a second client doing nothing. *)
Definition turn (s : pool) (k : nat) : label :=
  match wstep s (k mod 2) false with Next _ => LW (k mod 2) false | _ => LC 1 (Run 0) end.
Fixpoint turns (s : pool) (k : nat) : pool :=
  match k with O => s | S j => match step (turns s j) (turn (turns s j) j) with Next s' => s' | _ => turns s j end end.
Lemma turns_ok s : nth_error (prs s) 1 = Some pinit -> count_occ Nat.eq_dec (tasks s) 1 = 0 -> N 1 fany (ws s) = 0 -> length (ws s) = 2 ->
  forall k, (nth_error (prs (turns s k)) 1 = Some pinit /\ count_occ Nat.eq_dec (tasks (turns s k)) 1 = 0 /\ N 1 fany (ws (turns s k)) = 0 /\
    length (ws (turns s k)) = 2) /\ step (turns s k) (turn (turns s k) k) = Next (turns s (S k)).
Proof.
  intros H1 H2 H3 H4. assert (Q : forall s k, nth_error (prs s) 1 = Some pinit -> exists s', step s (turn s k) = Next s').
  { intros s0 k Hp. unfold turn. destruct (wstep s0 (k mod 2) false) as [| |s'] eqn:E; [| |exists s'; exact E];
      exists s0; cbn [step]; unfold cstep; rewrite Hp; reflexivity. }
  assert (I : forall k, nth_error (prs (turns s k)) 1 = Some pinit /\ count_occ Nat.eq_dec (tasks (turns s k)) 1 = 0 /\ N 1 fany (ws (turns s k)) = 0 /\
    length (ws (turns s k)) = 2).
  { induction k as [|k (I1 & I2 & I3 & I4)]; [auto|]. cbn [turns]. destruct (Q (turns s k) k I1) as (s' & E). rewrite E. unfold turn in E.
    destruct (wstep (turns s k) (k mod 2) false) as [| |s''] eqn:Ew.
    1, 2: cbn [step] in E; unfold cstep in E; rewrite I1 in E; cbn in E; injection E as <-; auto.
    cbn [step] in E. rewrite Ew in E. injection E as ->.
    destruct (wstep_cases _ _ _ _ 1 Ew) as (v & v' & Hv & Ev & [(Nh & Hp & Ht)|(Hh & _)]); [|destruct (N_any_holds 1 _ _ v I3 Hv Hh)].
    rewrite Hp, Ev, put_length. repeat split; auto.
    - destruct Ht as [(-> & _)|(q & Ht & _)]; [exact I2|]. rewrite Ht in I2. cbn in I2. destruct (Nat.eq_dec q 1); [discriminate|exact I2].
    - pose proof (N_put 1 fany _ _ _ v' Hv) as Y. rewrite (hw_nohold 1 fany v Nh) in Y.
      assert (~ holds 1 v').
      { destruct Ht as [(_ & Ht)|(q & Ht & ->)]; [exact Ht|]. rewrite Ht in I2. cbn in I2. destruct (Nat.eq_dec q 1); [discriminate|].
        intros (st & Hs). cbn in Hs. congruence. }
      rewrite (hw_nohold 1 fany v') in Y by assumption. lia. }
  intros k. split; [apply I|]. cbn [turns]. destruct (Q (turns s k) k) as (s' & E); [apply I|]. rewrite E. reflexivity.
Qed.
Example C53_case : exists ls sg la, no_cancel ls /\ growing (sinit 2) ls /\ run (sinit 2) ls = Next (sg 0) /\
  (forall k, step (sg k) (la k) = Next (sg (S k))) /\
  (forall k, ~ cancels (la k) /\ not_smaller (sg k) (la k) /\ ~ managing (la k)) /\
  (forall i k, exists k', k <= k' /\ ((exists b, la k' = LW i b) \/ ~ forall threw, exists s', step (sg k') (LW i threw) = Next s')) /\
  outstanding 0 (sg 0).
Proof.
  destruct (next_inv (run (sinit 2) (pool2 ++ group 5)) (fun s => match nth_error (prs s) 1, nth_error (prs s) 0 with
    | Some y, Some x => match pc x, pc y with CIdle, CIdle => running x && negb (running y) && negb (exc y) && (tcount y =? 0) && (given y =? 0) && (compl y =? 0) &&
        match plog y with [] => true | _ => false end && (count_occ Nat.eq_dec (tasks s) 1 =? 0) && (N 1 fany (ws s) =? 0) && (length (ws s) =? 2)
      | _, _ => false end
    | _, _ => false end)) as (s & E & K); [vm_compute; reflexivity|].
  destruct (nth_error (prs s) 1) as [y|] eqn:Hy; [|discriminate K]. destruct (nth_error (prs s) 0) as [x|] eqn:Hx; [|discriminate K].
  destruct (pc x) eqn:Px; try discriminate K. destruct (pc y) eqn:Py; try discriminate K. rewrite !andb_true_iff, !Nat.eqb_eq in K.
  destruct K as (((((((((K1 & K2) & K3) & K4) & K5) & K6) & K7) & K8) & K9) & K10).
  assert (Yp : y = pinit). { destruct y as [yt yg yc yr ye yp yl]. cbn in *. subst. destruct yr, ye, yl; try discriminate. reflexivity. }
  subst y. pose proof (turns_ok s Hy K8 K9 K10) as T.
  exists (pool2 ++ group 5), (turns s), (fun k => turn (turns s k) k).
  split; [apply no_cancelb; vm_compute; reflexivity|]. split; [apply growingb_ok; vm_compute; reflexivity|]. split; [exact E|].
  split; [intros k; apply T|]. split; [|split].
  - intros k. unfold turn. destruct (wstep (turns s k) (k mod 2) false); cbn [cancels not_smaller managing]; repeat split; auto; intros z Hz _;
      destruct (T k) as ((T1 & _) & _); assert (z = pinit) by congruence; subst z; cbn; lia.
  - intros i k. destruct (Nat.lt_ge_cases i 2) as [Hi|Hi].
    + exists (2 * k + i). split; [lia|]. unfold turn. replace ((2 * k + i) mod 2) with i.
      2:{ rewrite Nat.add_comm, Nat.mul_comm, Nat.mod_add by lia. symmetry. apply Nat.mod_small. exact Hi. }
      destruct (wstep (turns s (2 * k + i)) i false) as [| |s'] eqn:Ew; [right|right|left; eauto];
        intros F; destruct (F false) as (s' & F'); cbn [step] in F'; congruence.
    + exists k. split; [lia|]. right. intros F. destruct (F false) as (s' & F'). cbn [step] in F'. unfold wstep in F'.
      destruct (T k) as ((_ & _ & _ & T4) & _). destruct (nth_error (ws (turns s k)) i) eqn:Hn; [|discriminate].
      assert (i < length (ws (turns s k))) by (apply nth_error_Some; congruence). lia.
  - exists x. cbn [turns]. split; [exact Hx|]. split; [exact K1|]. rewrite Px. discriminate.
Qed.
Print Assumptions C53_no_deadlock_refuted.
Print Assumptions C53_progress_partial.
Print Assumptions C53_fair_completion_partial.

(** ** C54: cancelling releases the waiter *)
Definition C54_claim : Prop := forall np ls s p x cmd s1, run (sinit np) ls = Next s ->
  nth_error (prs s) p = Some x -> awaiting x -> ap s = AIdle -> cmd = Clear \/ cmd = Remove p -> step s (LA cmd) = Next s1 ->
  exists ls' s2, run s1 ls' = Next s2 /\ finished p s2.
(** It does the opposite: if a task of the group is still queued, no execution whatever
    finishes the group any more. *)
Theorem C54_cancelled_group_hangs : forall np ls s p l s1, no_cancel ls -> growing (sinit np) ls -> run (sinit np) ls = Next s ->
  outstanding p s -> In p (tasks s) ->
  (ap s = AIdle /\ (l = LA Clear \/ l = LA Stop \/ l = LA (Remove p))) \/ (l = LC p Destroy /\ forall x, nth_error (prs s) p = Some x -> pc x = CIdle) ->
  step s l = Next s1 -> forall ls' s2, run s1 ls' = Next s2 -> ~ finished p s2.
Proof.
  intros np ls s p l s1 C S E O Hin Hl E1 ls' s2 E2 (z & Hz & Rz). destruct (reach_inv np ls s C S E) as (G & V).
  destruct (going_normal p s G O) as (x & Hx & R & Pc & T & F & (M1 & M2 & _)).
  apply (count_occ_In Nat.eq_dec) in Hin. pose proof (pi_over _ _ _ _ (g_prov s G p x Hx)) as Ov.
  assert (Fl : N p (flast (tcount x)) (ws s) = 0) by (rewrite F; destruct (Nat.eqb_spec (compl x) (tcount x)); [lia|reflexivity]).
  assert (Fz : forall l, count_occ Nat.eq_dec (filter (fun q => negb (q =? p)) l) p = 0).
  { induction l0 as [|a t IH]; cbn; [reflexivity|]. destruct (Nat.eqb_spec a p); cbn; [exact IH|]. destruct (Nat.eq_dec a p); [contradiction|exact IH]. }
  assert (St : starved p s1).
  { destruct Hl as [(Ha & Hl)|(-> & Hc)].
    - destruct (clear_run_prov (tasks s) (prs s) p x Hx) as (lg & Hcl). cbn [step] in E1.
      destruct Hl as [-> |[-> | ->]]; cbn [step] in E1; unfold astep in E1; rewrite Ha in E1.
      + injection E1 as <-. eexists. split; [exact Hcl|]. unfold awaiting. cbn. repeat split; auto. lia.
      + destruct (length (ws (clear s)) =? 0); injection E1 as <-; (eexists; split; [exact Hcl|]); unfold awaiting; cbn; repeat split; auto; lia.
      + injection E1 as <-. exists x. unfold awaiting. cbn [prs tasks ws set_tasks]. rewrite Fz. repeat split; auto. lia.
    - cbn [step] in E1. unfold cstep in E1. rewrite Hx, (Hc x Hx) in E1. injection E1 as <-. eexists. cbn [prs tasks ws set_tasks set_p].
      rewrite (put_same _ _ _ _ Hx), Fz. split; [reflexivity|]. unfold awaiting. cbn. repeat split; auto; lia. }
  destruct (starved_forever p ls' s1 s2 St E2) as (y & Hy & Ry & _). congruence.
Qed.
(** One worker; a group of two; the client waits; clear before the worker looks at the queue. *)
Definition sched4 : list label := pool1 ++ group 2 ++ c 0 2.
Definition waitingb (s : pool) : bool := match nth_error (prs s) 0, ap s, tasks s with
    | Some x, AIdle, 0 :: _ => running x && match pc x with CSleep => true | _ => false end
    | _, _, _ => false end.
Example C54_case : no_cancel sched4 /\ growing (sinit 1) sched4 /\ exists s, run (sinit 1) sched4 = Next s /\ outstanding 0 s /\ In 0 (tasks s) /\ ap s = AIdle.
Proof.
  split; [apply no_cancelb; vm_compute; reflexivity|]. split; [apply growingb_ok; vm_compute; reflexivity|].
  destruct (next_inv (run (sinit 1) sched4) waitingb) as (s & E & K); [vm_compute; reflexivity|]. exists s. split; [exact E|]. unfold waitingb in K.
  destruct (nth_error (prs s) 0) as [x|] eqn:Hx; [|discriminate]. destruct (ap s); try discriminate. destruct (tasks s) as [|[|] t]; try discriminate.
  apply andb_prop in K as [K1 K2]. split; [|split; [left; reflexivity|reflexivity]]. exists x. split; [exact Hx|]. split; [exact K1|].
  destruct (pc x); try discriminate.
Qed.
Theorem C54_cancel_refuted : ~ C54_claim.
Proof.
  intros H. destruct (next_inv (run (sinit 1) sched4) waitingb) as (s & E & K); [vm_compute; reflexivity|]. unfold waitingb in K.
  destruct (nth_error (prs s) 0) as [x|] eqn:Hx; [|discriminate]. destruct (ap s) eqn:Ha; try discriminate. destruct (tasks s) as [|[|] t] eqn:Ht; try discriminate.
  apply andb_prop in K as [K1 K2]. assert (Hs : step s (LA Clear) = Next (clear s)) by (cbn [step]; unfold astep; rewrite Ha; reflexivity).
  assert (O : outstanding 0 s). { exists x. split; [exact Hx|]. split; [exact K1|]. destruct (pc x); try discriminate. }
  destruct (H 1 sched4 s 0 x Clear (clear s) E Hx) as (ls' & s2 & E2 & F); auto.
  - unfold awaiting. destruct (pc x); try discriminate. auto.
  - apply (C54_cancelled_group_hangs 1 sched4 s 0 (LA Clear) (clear s)) with (ls' := ls') (s2 := s2); auto.
    + apply no_cancelb. vm_compute. reflexivity.
    + apply growingb_ok. vm_compute. reflexivity.
    + rewrite Ht. left. reflexivity.
Qed.
(** With none of the group's tasks queued, removing the provider changes nothing. *)
Theorem C54_nothing_queued_partial : forall s p, ap s = AIdle -> ~ In p (tasks s) -> step s (LA (Remove p)) = Next s.
Proof.
  intros s p Ha Hn. cbn [step]. unfold astep. rewrite Ha, filter_notin by exact Hn. destruct s; reflexivity.
Qed.
Print Assumptions C54_cancelled_group_hangs.
Print Assumptions C54_cancel_refuted.
Print Assumptions C54_nothing_queued_partial.

(** ** C55: stop, then resize *)
(** An idle pool is stopped and resized to n > 0 workers; then groups added to it can be
    finished (without resizing it once more). *)
Definition C55_claim : Prop := forall np ls1 s1 ls2 s p, no_cancel ls1 -> no_cancel ls2 -> growing (sinit np) (ls1 ++ LA Stop :: ls2) ->
  run (sinit np) ls1 = Next s1 -> ap s1 = AIdle -> (forall q, ~ outstanding q s1) ->
  run (sinit np) (ls1 ++ LA Stop :: ls2) = Next s -> ap s = AIdle -> 0 < length (ws s) -> outstanding p s ->
  exists ls' s', Forall (fun l => ~ managing l) ls' /\ run s ls' = Next s' /\ finished p s'.
Definition stopped_workers (p : nat) (s : pool) : Prop := (forall i v, nth_error (ws s) i = Some v -> v = WDead) /\
  exists x, nth_error (prs s) p = Some x /\ running x = true /\ (pc x = CIdle \/ awaiting x).
Lemma stopped_forever p : forall ls s s', Forall (fun l => ~ managing l) ls -> stopped_workers p s -> run s ls = Next s' -> stopped_workers p s'.
Proof.
  induction ls as [|l t IH]; intros s s' Hm K E; cbn in E; [injection E as <-; exact K|]. destruct (step s l) as [| |s1] eqn:E1; try discriminate.
  inversion Hm as [|? ? Hm1 Hm2]; subst. apply (IH s1); auto. destruct K as (K & x & Hx & R & Pc).
  assert (NL : forall i b, l <> LW i b).
  { intros i b ->. cbn [step] in E1. unfold wstep in E1. destruct (nth_error (ws s) i) as [v|] eqn:Hv; [|discriminate]. rewrite (K i v Hv) in E1. discriminate. }
  destruct (nonw_cases s l s1 p x E1 NL Hx R Pc) as (y & B1 & B2 & _ & _ & B5 & _). split; [|exists y; auto].
  assert (Hws : ws s1 = ws s \/ ws s1 = map wake (ws s)).
  { destruct l as [i b|i|q cmd|q|cmd|]; cbn [step] in E1; try (destruct (Hm1 I)).
    - destruct (NL i b eq_refl).
    - destruct (nth_error (ws s) i) as [[]|] eqn:Hv; try discriminate. discriminate (K i _ Hv).
    - unfold cstep in E1. destruct (nth_error (prs s) q) as [z|]; [|discriminate]. destruct (pc z); try discriminate.
      + destruct cmd; [destruct (negb (running z) && (0 <? n))| |]; injection E1 as <-; auto.
      + injection E1 as <-; auto.
      + injection E1 as <-; auto.
      + injection E1 as <-; auto.
      + destruct (length (ws s) =? 0); injection E1 as <-; auto.
      + injection E1 as <-; auto.
      + injection E1 as <-; auto.
      + destruct (running z); injection E1 as <-; auto.
    - destruct (nth_error (prs s) q) as [z|]; [|discriminate]. destruct (pc z); try discriminate. injection E1 as <-; auto. }
  intros i v Hv. destruct Hws as [Hw|Hw]; rewrite Hw in Hv; [apply (K i v Hv)|].
  rewrite nth_map in Hv. destruct (nth_error (ws s) i) as [u|] eqn:Hu; [|discriminate]. cbn in Hv. rewrite (K i u Hu) in Hv. cbn in Hv. congruence.
Qed.
Definition restart : list label :=
  repeat (LA (Resize 0)) 1 ++ w 0 2 ++ repeat (LA (Resize 0)) 2 ++ LA (Resize 1) :: repeat (LA (Resize 0)) 5 ++ w 0 4 ++ group 1 ++ c 0 2.
Theorem C55_restart_refuted : ~ C55_claim.
Proof.
  intros H.
  destruct (next_inv (run (sinit 1) pool1) (fun s => match ap s, prs s with AIdle, [x] => negb (running x) | _, _ => false end)) as (s1 & E1 & K1); [vm_compute; reflexivity|].
  destruct (next_inv (run (sinit 1) (pool1 ++ LA Stop :: restart)) (fun s => match ap s, ws s, nth_error (prs s) 0 with
    | AIdle, [WDead], Some x => running x && match pc x with CSleep => true | _ => false end | _, _, _ => false end)) as (s & E & K); [vm_compute; reflexivity|].
  destruct (ap s) eqn:Ha; try discriminate K. destruct (ws s) as [|[] [|]] eqn:Hw; try discriminate K. destruct (nth_error (prs s) 0) as [x|] eqn:Hx; [|discriminate].
  apply andb_prop in K as [K2 K3]. destruct (ap s1) eqn:Ha1; try discriminate K1. destruct (prs s1) as [|x1 [|]] eqn:Hp1; try discriminate K1.
  destruct (H 1 pool1 s1 restart s 0) as (ls' & s' & F & E' & (y & Hy & Ry)); auto.
  - apply no_cancelb. vm_compute. reflexivity.
  - apply no_cancelb. vm_compute. reflexivity.
  - apply growingb_ok. vm_compute. reflexivity.
  - intros q (z & Hz & Rz & _). rewrite Hp1 in Hz. destruct q as [|[|q]]; cbn in Hz; try discriminate Hz. injection Hz as <-. rewrite Rz in K1. discriminate K1.
  - rewrite Hw. cbn. lia.
  - exists x. split; [exact Hx|]. split; [exact K2|]. destruct (pc x); try discriminate K3; discriminate.
  - assert (Sw : stopped_workers 0 s).
    { split; [intros i v Hv; rewrite Hw in Hv; destruct i as [|[|]]; cbn in Hv; congruence|]. exists x. split; [exact Hx|]. split; [exact K2|].
      unfold awaiting. destruct (pc x); try discriminate K3. right. right. reflexivity. }
    destruct (stopped_forever 0 ls' s s' F Sw E') as (_ & z & Hz & Rz & _). congruence.
Qed.
(** A pool that was never stopped can be resized as often as wanted: its workers go on. *)
Theorem C55_resize_partial : forall np ls s p, no_cancel ls -> growing (sinit np) ls -> run (sinit np) ls = Next s -> outstanding p s ->
  exists i, forall threw, exists s', step s (LW i threw) = Next s'.
Proof. exact C53_progress_partial. Qed.
Definition sched5 : list label := pool2 ++ LA (Resize 1) :: [LA (Resize 0)] ++ w 1 2 ++ repeat (LA (Resize 0)) 3 ++ group 2.
Example C55_case : no_cancel sched5 /\ growing (sinit 1) sched5 /\ exists s, run (sinit 1) sched5 = Next s /\ outstanding 0 s /\ ws s = [WHead].
Proof.
  split; [apply no_cancelb; vm_compute; reflexivity|]. split; [apply growingb_ok; vm_compute; reflexivity|].
  eexists. split; [vm_compute; reflexivity|]. split; [|reflexivity]. eexists. cbn. split; [reflexivity|]. split; [reflexivity|discriminate].
Qed.
Print Assumptions C55_restart_refuted.
Print Assumptions C55_resize_partial.

(** ** C86: after wait returned no worker touches the provider *)
Definition C86_claim : Prop := forall np ls s p x ok l i v, no_cancel ls -> growing (sinit np) ls -> run (sinit np) ls = Next s ->
  nth_error (prs s) p = Some x -> plog x = EWaited ok :: l -> nth_error (ws s) i = Some v -> ~ holds p v.
Theorem C86_no_late_access_refuted : ~ C86_claim.
Proof.
  intros H. set (ls := pool2 ++ group 2 ++ w 0 9 ++ w 1 11 ++ c 0 2).
  destruct (next_inv (run (sinit 1) ls) (fun s => match nth_error (prs s) 0, nth_error (ws s) 0 with
    | Some x, Some v => match plog x, v with EWaited true :: _, WCmp 0 1 => true | _, _ => false end | _, _ => false end)) as (s & E & K); [vm_compute; reflexivity|].
  destruct (nth_error (prs s) 0) as [x|] eqn:Hx; [|discriminate K]. destruct (nth_error (ws s) 0) as [v|] eqn:Hv; [|discriminate K].
  destruct (plog x) as [|[| | |[]] lg] eqn:Hl; try discriminate K. apply (H 1 ls s 0 x true lg 0 v); auto.
  - apply no_cancelb. vm_compute. reflexivity.
  - apply growingb_ok. vm_compute. reflexivity.
  - destruct v as [| | | | | | | | | | | | |[|] [|[|]]| | |]; try discriminate K. exists (SCmp 1). reflexivity.
Qed.
(** The only late access is the read of _taskCount at thread_pool.cpp:69, and it is not
    followed by another. *)
Theorem C86_late_access_partial : forall np ls s p x ok l i v, no_cancel ls -> growing (sinit np) ls -> run (sinit np) ls = Next s ->
  nth_error (prs s) p = Some x -> plog x = EWaited ok :: l -> pc x = CIdle -> running x = false -> nth_error (ws s) i = Some v -> holds p v ->
  exists k, v = WCmp p k /\ k < tcount x.
Proof.
  intros np ls s p x ok l i v C S E Hx Hl Pc R Hv (st & Hs). destruct (reach_inv np ls s C S E) as (G & _).
  destruct (g_prov s G p x Hx) as [A B L D]. rewrite R in D. destruct D as (_ & D2 & D3 & D4 & _).
  pose proof (N_ge p fgive _ _ _ Hv) as N1. pose proof (N_ge p fin_ _ _ _ Hv) as N2. pose proof (N_ge p (flast (tcount x)) _ _ _ Hv) as N3.
  pose proof (N_ge p (fover (tcount x)) _ _ _ Hv) as N4. unfold hw in *. rewrite Hs, Nat.eqb_refl in *.
  destruct v; cbn in Hs; try discriminate; injection Hs as -> <-; cbn [fgive fin_ flast fover b2n] in *; try lia.
  exists c0. split; [reflexivity|]. destruct (Nat.eqb_spec c0 (tcount x)); [cbn [b2n] in N3; lia|].
  destruct (Nat.ltb_spec (tcount x) c0); [cbn [orb b2n] in N4; lia|]. lia.
Qed.
Example C86_case : exists s x l, run (sinit 1) (pool2 ++ group 2 ++ w 0 9 ++ w 1 11 ++ c 0 2) = Next s /\ nth_error (prs s) 0 = Some x /\
  plog x = EWaited true :: l /\ pc x = CIdle /\ running x = false /\ nth_error (ws s) 0 = Some (WCmp 0 1).
Proof. eexists. eexists. eexists. split; [vm_compute; reflexivity|]. repeat split; reflexivity. Qed.
Print Assumptions C86_no_late_access_refuted.
Print Assumptions C86_late_access_partial.

(** ** C87: no data race on the flags *)
(** Two threads are about to access the same plain object, one of them writing, and not both
    under its mutex: _exit (read without lock at 287 and 292, written at 166, 180, 193, 265)
    or _exceptionRaised (written without lock at 63, read and written under the provider's
    mutex at 85-86). *)
Definition races (s : pool) : Prop :=
  (exists i v, nth_error (ws s) i = Some v /\ (v = WHead \/ v = WCheck) /\
     (ap s = AStopFlag \/ exists n, ap s = AGrowVec n \/ ap s = AShrinkPop n \/ (ap s = AShrinkFlag n /\ n <= i))) \/
  (exists p i j, i <> j /\ nth_error (ws s) i = Some (WExc p) /\ nth_error (ws s) j = Some (WExc p)) \/
  (exists p x i, nth_error (prs s) p = Some x /\ pc x = CWait /\ running x = false /\ nth_error (ws s) i = Some (WExc p)).
Definition C87_claim : Prop := forall np ls s, growing (sinit np) ls -> run (sinit np) ls = Next s -> ~ races s.
Theorem C87_data_race_refuted : ~ C87_claim.
Proof.
  intros H. destruct (next_inv (run (sinit 1) (pool1 ++ [LA Stop])) (fun s => match ap s, nth_error (ws s) 0 with AStopFlag, Some WHead => true | _, _ => false end))
    as (s & E & K); [vm_compute; reflexivity|]. destruct (ap s) eqn:Ha; try discriminate K. destruct (nth_error (ws s) 0) as [[]|] eqn:Hw; try discriminate K.
  apply (H 1 (pool1 ++ [LA Stop]) s); auto; [apply growingb_ok; vm_compute; reflexivity|]. left. exists 0, WHead. auto.
Qed.
(** Two tasks that throw at the same time race on _exceptionRaised. *)
Theorem C87_exception_race_refuted : ~ (forall np ls s p i j, no_cancel ls -> growing (sinit np) ls -> run (sinit np) ls = Next s ->
  nth_error (ws s) i = Some (WExc p) -> nth_error (ws s) j = Some (WExc p) -> i = j).
Proof.
  intros H. set (ls := pool2 ++ group 2 ++ w 0 7 ++ w 1 7 ++ [LW 0 true; LW 1 true]).
  destruct (next_inv (run (sinit 1) ls) (fun s => match nth_error (ws s) 0, nth_error (ws s) 1 with Some (WExc 0), Some (WExc 0) => true | _, _ => false end))
    as (s & E & K); [vm_compute; reflexivity|].
  destruct (nth_error (ws s) 0) as [[| | | | | | | | | | |[|]| | | | |]|] eqn:H0; try discriminate K.
  destruct (nth_error (ws s) 1) as [[| | | | | | | | | | |[|]| | | | |]|] eqn:H1; try discriminate K.
  assert (Z : 0 = 1); [|discriminate Z]. apply (H 1 ls s 0 0 1); auto.
  - apply no_cancelb. vm_compute. reflexivity.
  - apply growingb_ok. vm_compute. reflexivity.
Qed.
(** The reader of _exceptionRaised and its writers never race. *)
Theorem C87_wait_flag_partial : forall np ls s p x i, no_cancel ls -> growing (sinit np) ls -> run (sinit np) ls = Next s ->
  nth_error (prs s) p = Some x -> pc x = CWait -> running x = false -> nth_error (ws s) i <> Some (WExc p).
Proof.
  intros np ls s p x i C S E Hx Pc R Hv. destruct (reach_inv np ls s C S E) as (G & _).
  destruct (g_prov s G p x Hx) as [A B L D]. rewrite R in D. destruct D as (_ & _ & D3 & _).
  pose proof (N_ge p fin_ _ _ _ Hv) as N2. hwu N2. lia.
Qed.
Example C87_case : exists s x, run (sinit 1) (pool2 ++ group 2 ++ w 0 9 ++ w 1 11 ++ c 0 1) = Next s /\ nth_error (prs s) 0 = Some x /\ pc x = CWait /\ running x = false.
Proof. eexists. eexists. split; [vm_compute; reflexivity|]. repeat split; reflexivity. Qed.
Print Assumptions C87_data_race_refuted.
Print Assumptions C87_exception_race_refuted.
Print Assumptions C87_wait_flag_partial.
