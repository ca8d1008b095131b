(** States of the thread pool model in which a group can never be completed. *)
From Coq Require Import List Arith Bool Lia.
From Verif Require Import Pool PoolProofs PoolLive.
Import ListNotations.

(** What a step does to the provider p, its queue entries and its holders, seen from outside. *)
Lemma put_id {A} (l : list A) i x : nth_error l i = Some x -> put l i x = l.
Proof. revert i. induction l as [|a l IH]; intros [|i] H; cbn in *; try discriminate; [congruence|f_equal; auto]. Qed.

Lemma clear_run_nth : forall q prs p, nth_error (clear_run prs q) p =
  match nth_error prs p with None => None | Some x => nth_error (clear_run prs q) p end.
Proof.
  intros q prs p. destruct (nth_error prs p) eqn:E; [reflexivity|]. revert prs E. induction q as [|a q IH]; intros prs E; cbn; [exact E|].
  apply IH. destruct (nth_error prs a); [|exact E]. apply nth_error_None. rewrite put_length. apply nth_error_None. exact E.
Qed.
Lemma clear_run_prov : forall q prs p x, nth_error prs p = Some x -> exists lg,
  nth_error (clear_run prs q) p = Some (mkP (tcount x) (given x) (compl x) (running x) (exc x) (pc x) lg).
Proof.
  induction q as [|a q IH]; intros prs p x H; cbn; [exists (plog x); rewrite H; destruct x; reflexivity|].
  destruct (Nat.eq_dec a p) as [->|Na].
  - rewrite H. destruct (IH (put prs p (mkP (tcount x) (given x) (compl x) (running x) (exc x) (pc x) (EEnd 1 false :: EBegin 1 :: plog x))) p
       (mkP (tcount x) (given x) (compl x) (running x) (exc x) (pc x) (EEnd 1 false :: EBegin 1 :: plog x))) as (lg & E).
    + apply (put_same _ _ _ _ H).
    + exists lg. exact E.
  - apply (IH _ p x). destruct (nth_error prs a); [|exact H]. rewrite put_other by congruence. exact H.
Qed.

Lemma wstep_cases s i b s' p : wstep s i b = Next s' ->
  exists w w', nth_error (ws s) i = Some w /\ ws s' = put (ws s) i w' /\
  ((~ holds p w /\ nth_error (prs s') p = nth_error (prs s) p /\
    ((tasks s' = tasks s /\ ~ holds p w') \/ exists q, tasks s = q :: tasks s' /\ w' = WGive q)) \/
   (holds p w /\ tasks s' = tasks s /\ exists x y, nth_error (prs s) p = Some x /\ nth_error (prs s') p = Some y /\ tcount y = tcount x /\
      match w with
      | WGive _ => w' = WLt p (given x) /\ pc y = pc x /\ running y = running x /\ compl y = compl x
      | WLt _ t => (w' = WBegin p t \/ w' = WHead) /\ y = x
      | WBegin _ t => w' = WEnd p t /\ pc y = pc x /\ running y = running x /\ compl y = compl x
      | WEnd _ t => (w' = WExc p \/ w' = WDone p) /\ pc y = pc x /\ running y = running x /\ compl y = compl x
      | WExc _ => w' = WDone p /\ pc y = pc x /\ running y = running x /\ compl y = compl x
      | WDone _ => w' = WCmp p (S (compl x)) /\ pc y = pc x /\ running y = running x /\ compl y = S (compl x)
      | WCmp _ c => w' = (if c =? tcount x then WNotify p else WHead) /\ y = x
      | WNotify _ => w' = WHead
      | _ => False
      end)).
Proof.
  intros E. unfold wstep in E. destruct (nth_error (ws s) i) as [w|] eqn:H; [|discriminate].
  exists w.
  assert (Kp : forall p f, with_p s p f = Next s' -> exists x, nth_error (prs s) p = Some x /\ f x = Next s').
  { intros q f E'. unfold with_p in E'. destruct (nth_error (prs s) q); [eauto|discriminate]. }
  assert (Kb : forall l f, with_b l i f = Next s' -> exists b, nth_error l i = Some b /\ f b = Next s').
  { intros l f E'. unfold with_b in E'. destruct (nth_error l i); [eauto|discriminate]. }
  assert (NH : forall w, hold w = None -> ~ holds p w) by (intros v Hv (st & Hs); congruence).
  assert (NQ : forall w q st, hold w = Some (q, st) -> q <> p -> ~ holds p w) by (intros v q st Hv Hq (st' & Hs); congruence).
  assert (HQ : forall w st, hold w = Some (p, st) -> holds p w) by (intros v st Hv; exists st; exact Hv).
  destruct w as [| | | | | | |q|q t|q t|q t|q|q|q cc|q| |]; try discriminate E.
  all: try (apply Kp in E as (x & Hx & E)); try (apply Kb in E as (bb & Hb & E)).
  6:{ destruct (tasks s) as [|q t] eqn:Et.
      - apply Kb in E as (bb & Hb & E). injection E as <-. exists WHead. split; [reflexivity|]. split; [reflexivity|]. left.
        split; [apply NH; reflexivity|]. split; [reflexivity|]. left. split; [exact Et|apply NH; reflexivity].
      - injection E as <-. exists (WGive q). split; [reflexivity|]. split; [reflexivity|]. left.
        split; [apply NH; reflexivity|]. split; [reflexivity|]. right. exists q. auto. }
  all: injection E as <-; eexists; (split; [reflexivity|]); (split; [reflexivity|]).
  all: try (left; (split; [apply NH; reflexivity|]); (split; [reflexivity|]); left; (split; [reflexivity|]); apply NH; try reflexivity;
            match goal with |- context [if ?x then _ else _] => destruct x; reflexivity end).
  all: clear Kp Kb.
  all: destruct (Nat.eq_dec q p) as [Eq|Nq];
    [subst q; right; (split; [eapply HQ; reflexivity|]); (split; [reflexivity|]); exists x;
       cbn [prs set_w set_p]; eexists; (split; [exact Hx|]);
       (split; [first [exact Hx|apply (put_same _ _ _ _ Hx)]|]); (split; [reflexivity|]); auto
    |left; (split; [eapply NQ; [reflexivity|exact Nq]|]); (split; [cbn [prs set_w set_p]; rewrite ?put_other by congruence; reflexivity|]); left; (split; [reflexivity|])].
  all: try (eapply NQ; [reflexivity|exact Nq]).
  all: try (apply NH; reflexivity).
  - destruct (t <? tcount x); auto.
  - destruct (t <? tcount x); [eapply NQ; [reflexivity|exact Nq]|apply NH; reflexivity].
  - destruct b; cbn; auto.
  - destruct b; eapply NQ; [reflexivity|exact Nq|reflexivity|exact Nq].
  - destruct (cc =? tcount x); [eapply NQ; [reflexivity|exact Nq]|apply NH; reflexivity].
Qed.

Definition awaiting (x : prov) : Prop := pc x = CWait \/ pc x = CSleep.
Lemma count_filter_le p q l : count_occ Nat.eq_dec (filter (fun a => negb (a =? q)) l) p <= count_occ Nat.eq_dec l p.
Proof.
  induction l as [|a l IH]; cbn; [lia|]. destruct (a =? q); cbn; destruct (Nat.eq_dec a p); lia.
Qed.
Lemma nonw_cases s l s' p x : step s l = Next s' -> (forall i b, l <> LW i b) ->
  nth_error (prs s) p = Some x -> running x = true -> pc x = CIdle \/ awaiting x ->
  exists y, nth_error (prs s') p = Some y /\ running y = true /\ tcount y = tcount x /\ compl y = compl x /\
    (pc y = CIdle \/ awaiting y) /\ (awaiting x -> awaiting y) /\
    count_occ Nat.eq_dec (tasks s') p <= count_occ Nat.eq_dec (tasks s) p /\ forall f, N p f (ws s') <= N p f (ws s).
Proof.
  intros E NL Hx R Pc. unfold awaiting in *.
  destruct l as [i threw|i|q cmd|q|cmd|]; cbn [step] in E; [destruct (NL i threw eq_refl)| | | | |].
  - destruct (nth_error (ws s) i) as [[]|] eqn:H; try discriminate. injection E as <-. exists x. repeat split; auto.
    intros f. cbn. pose proof (N_put p f _ _ _ WWait H) as Z. unfold hw in Z. cbn in Z. lia.
  - unfold cstep in E. destruct (nth_error (prs s) q) as [y|] eqn:Hy; [|discriminate].
    assert (K : forall z, (q = p -> running z = true /\ tcount z = tcount x /\ compl z = compl x /\ (pc z = CIdle \/ pc z = CWait \/ pc z = CSleep) /\
          (pc x = CWait \/ pc x = CSleep -> pc z = CWait \/ pc z = CSleep)) ->
        exists y, nth_error (put (prs s) q z) p = Some y /\ running y = true /\ tcount y = tcount x /\ compl y = compl x /\
          (pc y = CIdle \/ pc y = CWait \/ pc y = CSleep) /\ (pc x = CWait \/ pc x = CSleep -> pc y = CWait \/ pc y = CSleep)).
    { intros z Hz. destruct (Nat.eq_dec q p) as [->|Nq].
      - exists z. rewrite (put_same _ _ _ _ Hy). split; [reflexivity|auto].
      - rewrite put_other by congruence. exists x. auto 10. }
    assert (Ey : q = p -> y = x) by (intros ->; congruence).
    assert (Fin : forall z tk wk, (exists y, nth_error (put (prs s) q z) p = Some y /\ running y = true /\ tcount y = tcount x /\ compl y = compl x /\
          (pc y = CIdle \/ pc y = CWait \/ pc y = CSleep) /\ (pc x = CWait \/ pc x = CSleep -> pc y = CWait \/ pc y = CSleep)) ->
          count_occ Nat.eq_dec tk p <= count_occ Nat.eq_dec (tasks s) p -> (forall f, N p f wk <= N p f (ws s)) ->
          exists y0, nth_error (put (prs s) q z) p = Some y0 /\ running y0 = true /\ tcount y0 = tcount x /\ compl y0 = compl x /\
          (pc y0 = CIdle \/ pc y0 = CWait \/ pc y0 = CSleep) /\ (pc x = CWait \/ pc x = CSleep -> pc y0 = CWait \/ pc y0 = CSleep) /\
          count_occ Nat.eq_dec tk p <= count_occ Nat.eq_dec (tasks s) p /\ forall f, N p f wk <= N p f (ws s)).
    { intros z tk wk (y0 & A1 & A2 & A3 & A4 & A5 & A6) A7 A8. exists y0. auto 10. }
    destruct (pc y) eqn:Epc.
    + destruct cmd as [n| |].
      * destruct (negb (running y) && (0 <? n)) eqn:Er; injection E as <-; [|exists x; auto 10]. apply Fin; auto. apply K.
        intros Eq. rewrite (Ey Eq), R in Er. discriminate.
      * injection E as <-. apply Fin; auto. apply K. intros Eq. rewrite (Ey Eq) in *. cbn. auto 10.
      * injection E as <-. apply Fin; auto; [|apply count_filter_le]. apply K. intros Eq. rewrite (Ey Eq) in *. cbn. auto 10.
    + injection E as <-. apply Fin; auto. apply K. intros Eq. rewrite (Ey Eq) in Epc. rewrite Epc in Pc. destruct Pc as [|[|]]; discriminate.
    + injection E as <-. apply Fin; auto. apply K. intros Eq. rewrite (Ey Eq) in Epc. rewrite Epc in Pc. destruct Pc as [|[|]]; discriminate.
    + injection E as <-. apply Fin; auto. apply K. intros Eq. rewrite (Ey Eq) in Epc. rewrite Epc in Pc. destruct Pc as [|[|]]; discriminate.
    + destruct (length (ws s) =? 0); injection E as <-; apply Fin; auto; apply K; intros Eq; rewrite (Ey Eq) in Epc; rewrite Epc in Pc; destruct Pc as [|[|]]; discriminate.
    + injection E as <-. apply Fin; auto. apply K. intros Eq. rewrite (Ey Eq) in Epc. rewrite Epc in Pc. destruct Pc as [|[|]]; discriminate.
    + assert (Nq : q <> p) by (intros Eq; rewrite (Ey Eq) in Epc; rewrite Epc in Pc; destruct Pc as [|[|]]; discriminate).
      injection E as <-. apply Fin; [apply K; intros Eq; contradiction| |].
      * cbn [tasks]. rewrite count_occ_app, count_repeat_other by exact Nq. lia.
      * intros f. cbn [ws]. rewrite N_wake. lia.
    + destruct (running y) eqn:Er; injection E as <-; apply Fin; auto; apply K; intros Eq; rewrite (Ey Eq) in *; cbn; [auto 10|congruence].
    + discriminate.
  - destruct (nth_error (prs s) q) as [y|] eqn:Hy; [|discriminate]. destruct (pc y) eqn:Epc; try discriminate. injection E as <-.
    cbn [prs tasks ws set_p]. destruct (Nat.eq_dec q p) as [->|Nq].
    + assert (y = x) by congruence. subst y. eexists. rewrite (put_same _ _ _ _ Hy). split; [reflexivity|]. cbn. repeat split; auto.
    + rewrite put_other by congruence. exists x. repeat split; auto.
  - assert (Kc : exists y, nth_error (prs (clear s)) p = Some y /\ running y = true /\ tcount y = tcount x /\ compl y = compl x /\
       (pc y = CIdle \/ pc y = CWait \/ pc y = CSleep) /\ (pc x = CWait \/ pc x = CSleep -> pc y = CWait \/ pc y = CSleep)).
    { destruct (clear_run_prov (tasks s) (prs s) p x Hx) as (lg & Z). eexists. split; [exact Z|]. cbn. auto 10. }
    assert (Same : forall tk wk, count_occ Nat.eq_dec tk p <= count_occ Nat.eq_dec (tasks s) p -> (forall f, N p f wk <= N p f (ws s)) ->
          exists y0, nth_error (prs s) p = Some y0 /\ running y0 = true /\ tcount y0 = tcount x /\ compl y0 = compl x /\
          (pc y0 = CIdle \/ pc y0 = CWait \/ pc y0 = CSleep) /\ (pc x = CWait \/ pc x = CSleep -> pc y0 = CWait \/ pc y0 = CSleep) /\
          count_occ Nat.eq_dec tk p <= count_occ Nat.eq_dec (tasks s) p /\ forall f, N p f wk <= N p f (ws s)).
    { intros tk wk A7 A8. exists x. auto 10. }
    unfold astep in E. destruct (ap s) as [|n|n|n| | |n|n|n| |k].
    + destruct cmd as [n| |r|].
      * destruct (n =? 0), (length (ws s) <? n), (n <? length (ws s)); injection E as <-; apply Same; auto.
      * injection E as <-. destruct Kc as (y & A1 & A2 & A3 & A4 & A5 & A6). exists y. repeat split; auto. cbn. lia.
      * injection E as <-. apply Same; auto. apply count_filter_le.
      * destruct Kc as (y & A1 & A2 & A3 & A4 & A5 & A6).
        destruct (length (ws (clear s)) =? 0); injection E as <-; exists y; repeat split; auto; cbn; lia.
    + injection E as <-. apply Same; auto.
    + injection E as <-. apply Same; auto.
    + destruct (length (ws s) <? n); injection E as <-; apply Same; auto. intros f. cbn. rewrite N_app. cbn. lia.
    + destruct (created s); injection E as <-; apply Same; auto.
    + discriminate.
    + injection E as <-. apply Same; auto. intros f. cbn. rewrite N_wake. lia.
    + destruct (n <? length (ws s)).
      * destruct (last (ws s) WDead) eqn:El; try discriminate. injection E as <-. apply Same; auto. intros f. cbn. rewrite N_removelast by exact El. lia.
      * injection E as <-. apply Same; auto.
    + injection E as <-. apply Same; auto.
    + injection E as <-. apply Same; auto. intros f. cbn. rewrite N_wake. lia.
    + destruct (nth_error (ws s) k) as [[]|]; try discriminate; injection E as <-; apply Same; auto. intros f. cbn. lia.
  - destruct (ap s); try discriminate. injection E as <-. exists x. repeat split; auto.
Qed.

(** ** A waiting client whose group no worker holds and which is not queued *)
Definition fany (st : stage) : bool := true.
Definition lost (p : nat) (s : pool) : Prop := exists x, nth_error (prs s) p = Some x /\ running x = true /\ awaiting x /\
  count_occ Nat.eq_dec (tasks s) p = 0 /\ N p fany (ws s) = 0.
Lemma N_any_holds p l i w : N p fany l = 0 -> nth_error l i = Some w -> ~ holds p w.
Proof. intros Z H (st & Hs). pose proof (N_ge p fany l i w H) as Q. unfold hw in Q. rewrite Hs, Nat.eqb_refl in Q. cbn in Q. lia. Qed.
Lemma hw_nohold p f w : ~ holds p w -> hw p f w = 0.
Proof.
  intros H. unfold hw. destruct (hold w) as [[q st]|] eqn:E; [|reflexivity]. destruct (Nat.eqb_spec q p) as [->|]; [|reflexivity].
  exfalso. apply H. exists st. exact E.
Qed.
Lemma lost_step p s l s' : lost p s -> step s l = Next s' -> lost p s'.
Proof.
  intros (x & Hx & R & A & Q & Z) E. destruct l as [i b| | | | |] eqn:El.
  1:{ cbn [step] in E. destruct (wstep_cases s i b s' p E) as (w & w' & H & Ew & [(Nh & Hp & Ht)|(Hh & _)]).
      2:{ destruct (N_any_holds p _ i w Z H Hh). }
      exists x. rewrite Hp. repeat split; auto.
      - destruct Ht as [(-> & _)|(q & Ht & _)]; [exact Q|]. rewrite Ht in Q. cbn in Q. destruct (Nat.eq_dec q p); [discriminate|exact Q].
      - rewrite Ew. pose proof (N_put p fany _ _ _ w' H) as Y. rewrite (hw_nohold p fany w Nh) in Y.
        assert (~ holds p w').
        { destruct Ht as [(_ & Ht)|(q & Ht & ->)]; [exact Ht|]. rewrite Ht in Q. cbn in Q. destruct (Nat.eq_dec q p); [discriminate|].
          intros (st & Hs). cbn in Hs. congruence. }
        rewrite (hw_nohold p fany w') in Y by assumption. lia. }
  all: destruct (nonw_cases s _ s' p x E ltac:(discriminate) Hx R (or_intror A)) as (y & B1 & B2 & B3 & B4 & B5 & B6 & B7 & B8);
    exists y; specialize (B8 fany); repeat split; auto; lia.
Qed.
Lemma lost_forever p : forall ls s s', lost p s -> run s ls = Next s' -> lost p s'.
Proof.
  induction ls as [|l t IH]; intros s s' L E; cbn in E; [injection E as <-; exact L|]. destruct (step s l) as [| |s1] eqn:E1; try discriminate.
  apply (IH s1); auto. apply (lost_step p s l s1 L E1).
Qed.

(** ** A running group with too few tasks left *)
Definition starved (p : nat) (s : pool) : Prop := exists x, nth_error (prs s) p = Some x /\ running x = true /\ (pc x = CIdle \/ awaiting x) /\
  compl x + N p fin_ (ws s) + N p fgive (ws s) + count_occ Nat.eq_dec (tasks s) p < tcount x /\ N p (flast (tcount x)) (ws s) = 0 /\
  N p (fover (tcount x)) (ws s) = 0.
Lemma starved_step p s l s' : starved p s -> step s l = Next s' -> starved p s'.
Proof.
  intros (x & Hx & R & A & Q & Z1 & Z2) E. destruct l as [i b| | | | |] eqn:El.
  2-6: destruct (nonw_cases s _ s' p x E ltac:(discriminate) Hx R A) as (y & B1 & B2 & B3 & B4 & B5 & B6 & B7 & B8);
    exists y; rewrite B3, B4; pose proof (B8 fin_); pose proof (B8 fgive); pose proof (B8 (flast (tcount x))); pose proof (B8 (fover (tcount x)));
    repeat split; auto; lia.
  cbn [step] in E. destruct (wstep_cases s i b s' p E) as (w & w' & H & Ew & [(Nh & Hp & Ht)|(Hh & Ht & x' & y & Hx' & Hy & Tc & K)]).
  - exists x. rewrite Hp, Ew.
    pose proof (N_put p fin_ _ _ _ w' H) as Y1. pose proof (N_put p fgive _ _ _ w' H) as Y2.
    pose proof (N_put p (flast (tcount x)) _ _ _ w' H) as Y3. pose proof (N_put p (fover (tcount x)) _ _ _ w' H) as Y4.
    rewrite (hw_nohold p _ w Nh) in Y1; rewrite (hw_nohold p _ w Nh) in Y2; rewrite (hw_nohold p _ w Nh) in Y3; rewrite (hw_nohold p _ w Nh) in Y4.
    destruct Ht as [(Et & Nw)|(q & Et & ->)].
    + rewrite (hw_nohold p _ w' Nw) in Y1; rewrite (hw_nohold p _ w' Nw) in Y2; rewrite (hw_nohold p _ w' Nw) in Y3; rewrite (hw_nohold p _ w' Nw) in Y4. rewrite Et. repeat split; auto; lia.
    + rewrite Et in Q. cbn [count_occ] in Q. destruct (Nat.eq_dec q p) as [->|Nq].
      * unfold hw in Y1, Y2, Y3, Y4. cbn [hold] in *. rewrite Nat.eqb_refl in *. cbn [fin_ fgive flast fover b2n] in *. repeat split; auto; lia.
      * assert (Nw : ~ holds p (WGive q)) by (intros (st & Hs); cbn in Hs; congruence).
        rewrite (hw_nohold p _ _ Nw) in Y1; rewrite (hw_nohold p _ _ Nw) in Y2; rewrite (hw_nohold p _ _ Nw) in Y3; rewrite (hw_nohold p _ _ Nw) in Y4. repeat split; auto; lia.
  - assert (x' = x) by congruence. subst x'. exists y. rewrite Tc, Ew, Ht. destruct Hh as (st & Hh).
    destruct w as [| | | | | | |q|q t|q t|q t|q|q|q cc|q| |]; cbn in Hh; try discriminate; injection Hh as -> <-.
    + destruct K as (-> & K1 & K2 & K3). rewrite K3. unfold awaiting in *. rewrite K1, K2.
      cnt p H (WLt p (given x)) fin_. cnt p H (WLt p (given x)) fgive. cnt p H (WLt p (given x)) (flast (tcount x)).
      cnt p H (WLt p (given x)) (fover (tcount x)). repeat split; auto; lia.
    + destruct K as ([-> | ->] & ->).
      * cnt p H (WBegin p t) fin_. cnt p H (WBegin p t) fgive. cnt p H (WBegin p t) (flast (tcount x)). cnt p H (WBegin p t) (fover (tcount x)).
        repeat split; auto; lia.
      * cnt p H WHead fin_. cnt p H WHead fgive. cnt p H WHead (flast (tcount x)). cnt p H WHead (fover (tcount x)). repeat split; auto; lia.
    + destruct K as (-> & K1 & K2 & K3). rewrite K3. unfold awaiting in *. rewrite K1, K2.
      cnt p H (WEnd p t) fin_. cnt p H (WEnd p t) fgive. cnt p H (WEnd p t) (flast (tcount x)). cnt p H (WEnd p t) (fover (tcount x)).
      repeat split; auto; lia.
    + destruct K as ([-> | ->] & K1 & K2 & K3); rewrite K3; unfold awaiting in *; rewrite K1, K2.
      * cnt p H (WExc p) fin_. cnt p H (WExc p) fgive. cnt p H (WExc p) (flast (tcount x)). cnt p H (WExc p) (fover (tcount x)). repeat split; auto; lia.
      * cnt p H (WDone p) fin_. cnt p H (WDone p) fgive. cnt p H (WDone p) (flast (tcount x)). cnt p H (WDone p) (fover (tcount x)). repeat split; auto; lia.
    + destruct K as (-> & K1 & K2 & K3). rewrite K3. unfold awaiting in *. rewrite K1, K2.
      cnt p H (WDone p) fin_. cnt p H (WDone p) fgive. cnt p H (WDone p) (flast (tcount x)). cnt p H (WDone p) (fover (tcount x)). repeat split; auto; lia.
    + destruct K as (-> & K1 & K2 & K3). rewrite K3. unfold awaiting in *. rewrite K1, K2.
      pose proof (N_ge p fin_ _ _ _ H) as Ge. hwu Ge.
      cnt p H (WCmp p (S (compl x))) fin_. cnt p H (WCmp p (S (compl x))) fgive. cnt p H (WCmp p (S (compl x))) (flast (tcount x)).
      cnt p H (WCmp p (S (compl x))) (fover (tcount x)).
      destruct (Nat.eqb_spec (S (compl x)) (tcount x)); [lia|]. destruct (Nat.ltb_spec (tcount x) (S (compl x))); [lia|].
      cbn [Nat.eqb orb b2n] in *. repeat split; auto; lia.
    + destruct K as (-> & ->). pose proof (N_ge p (flast (tcount x)) _ _ _ H) as Ge. hwu Ge.
      destruct (Nat.eqb_spec cc (tcount x)) as [Ec|Nc]; [cbn [b2n] in Ge; lia|].
      cnt p H WHead fin_. cnt p H WHead fgive. cnt p H WHead (flast (tcount x)). cnt p H WHead (fover (tcount x)). repeat split; auto; lia.
    + pose proof (N_ge p (flast (tcount x)) _ _ _ H) as Ge. hwu Ge. lia.
Qed.
Lemma starved_forever p : forall ls s s', starved p s -> run s ls = Next s' -> starved p s'.
Proof.
  induction ls as [|l t IH]; intros s s' L E; cbn in E; [injection E as <-; exact L|]. destruct (step s l) as [| |s1] eqn:E1; try discriminate.
  apply (IH s1); auto. apply (starved_step p s l s1 L E1).
Qed.
