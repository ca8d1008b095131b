(** Progress of the thread pool under fair scheduling. *)
From Coq Require Import List Arith Bool Lia.
From Verif Require Import Pool PoolProofs.
Import ListNotations.

(** ** There is a worker whenever a group is running *)
Definition winv (s : pool) : Prop := forall p x, nth_error (prs s) p = Some x ->
  (running x = true \/ exists n, pc x = CRunning n) -> 0 < length (ws s).

Lemma winv_init n : winv (sinit n).
Proof. intros p x H. apply nth_error_In in H. apply repeat_spec in H. subst x. cbn. intros [|(? & ?)]; discriminate. Qed.

Lemma wstep_frame s i threw s' : wstep s i threw = Next s' ->
  exists w w', nth_error (ws s) i = Some w /\ ws s' = put (ws s) i w' /\ (awake (ap s) = ap s' \/ ap s' = ap s) /\
  (forall p y, nth_error (prs s') p = Some y -> exists x, nth_error (prs s) p = Some x /\
     tcount y = tcount x /\ (running y = true -> running x = true) /\ (forall n, pc y = CRunning n -> pc x = CRunning n) /\
     (forall n, pc y = CInsert n -> pc x = CInsert n)) /\
  (forall p x, nth_error (prs s) p = Some x -> exists y, nth_error (prs s') p = Some y).
Proof.
  unfold wstep. destruct (nth_error (ws s) i) as [w|] eqn:H; [|discriminate].
  assert (K : forall (w' : wpc) (a : apc) (pr : list prov), (awake (ap s) = a \/ a = ap s) ->
     (pr = prs s \/ exists p x y, nth_error (prs s) p = Some x /\ pr = put (prs s) p y /\ tcount y = tcount x /\
          (running y = true -> running x = true) /\ (forall n, pc y = CRunning n -> pc x = CRunning n) /\ (forall n, pc y = CInsert n -> pc x = CInsert n)) ->
     exists w0 w0', Some w = Some w0 /\ put (ws s) i w' = put (ws s) i w0' /\ (awake (ap s) = a \/ a = ap s) /\
     (forall p y, nth_error pr p = Some y -> exists x, nth_error (prs s) p = Some x /\ tcount y = tcount x /\
       (running y = true -> running x = true) /\ (forall n, pc y = CRunning n -> pc x = CRunning n) /\ (forall n, pc y = CInsert n -> pc x = CInsert n)) /\
     (forall p x, nth_error (prs s) p = Some x -> exists y, nth_error pr p = Some y)).
  { intros w' a pr Ha Hpr. exists w, w'. split; [reflexivity|]. split; [reflexivity|]. split; [exact Ha|].
    destruct Hpr as [->|(p & x & y & Hx & -> & Hy)].
    - split; [intros q z Hz; exists z; auto 10|eauto].
    - split.
      + intros q z Hz. apply put_inv in Hz as [(-> & -> & _)|(_ & Hz)]; [exists x; auto|exists z; auto 10].
      + intros q z Hz. rewrite put_nth. destruct (_ && _); eauto. }
  assert (Kp : forall p f, with_p s p f = Next s' -> exists x, nth_error (prs s) p = Some x /\ f x = Next s').
  { intros p f E. unfold with_p in E. destruct (nth_error (prs s) p); [eauto|discriminate]. }
  assert (Kb : forall l f, with_b l i f = Next s' -> exists b, nth_error l i = Some b /\ f b = Next s').
  { intros l f E. unfold with_b in E. destruct (nth_error l i); [eauto|discriminate]. }
  destruct w; intros E; try discriminate.
  all: try (apply Kp in E as (x & Hx & E)); try (apply Kb in E as (b & Hb & E)).
  all: try (injection E as <-; cbn [ws ap prs set_w set_p set_rtc set_created set_ap]; apply K; auto; fail).
  - destruct (tasks s); [apply Kb in E as (b & Hb & E)|]; injection E as <-; apply K; auto.
  - injection E as <-. apply K; auto. right. exists p, x. eexists. repeat split; eauto.
  - injection E as <-. apply K; auto. right. exists p, x. eexists. repeat split; eauto.
  - injection E as <-. apply K; auto. right. exists p, x. eexists. repeat split; eauto.
  - injection E as <-. apply K; auto. right. exists p, x. eexists. repeat split; eauto.
  - injection E as <-. apply K; auto. right. exists p, x. eexists. repeat split; eauto.
  - injection E as <-. apply K; auto. right. exists p, x. eexists. split; [exact Hx|]. split; [reflexivity|]. split; [reflexivity|].
    split; [cbn; discriminate|]. cbn [pc]. split; intros n; destruct (pc x); cbn; congruence.
Qed.

Lemma winv_step s l s' : ginv s -> winv s -> ok_label s l -> step s l = Next s' -> winv s'.
Proof.
  intros G V O E. destruct l as [i threw|i|p cmd|p|cmd|]; cbn [step] in E.
  - destruct (wstep_frame _ _ _ _ E) as (w & w' & H & Ew & _ & F & _). intros p y Hy K. rewrite Ew, put_length.
    destruct (F p y Hy) as (x & Hx & _ & F1 & F2 & _). apply (V p x Hx). destruct K as [K|(n & K)]; [left; auto|right; exists n; auto].
  - destruct (nth_error (ws s) i) as [[]|]; try discriminate. injection E as <-. intros p y Hy K. cbn. rewrite put_length. apply (V p y Hy K).
  - unfold cstep in E. destruct (nth_error (prs s) p) as [x|] eqn:Hx; [|discriminate].
    assert (K : forall y, ((running y = true \/ exists n, pc y = CRunning n) -> 0 < length (ws s)) -> winv (set_p s p y)).
    { intros y Hk q z Hz Hr. cbn in *. apply put_inv in Hz as [(-> & -> & _)|(_ & Hz)]; [auto|apply (V q z Hz Hr)]. }
    assert (Vx := V p x Hx). destruct (pc x) eqn:Epc.
    + destruct cmd as [n| |].
      * destruct (negb (running x) && (0 <? n)); injection E as <-; [|exact V]. apply K. cbn. intros [R|(? & ?)]; [auto|discriminate].
      * injection E as <-. apply K. cbn. intros [R|(? & ?)]; [auto|discriminate].
      * injection E as <-. assert (K' := K (mkP (tcount x) (given x) (compl x) (running x) (exc x) CWait (plog x))).
        intros q z Hz Hr. apply (K' ltac:(cbn; intros [R|(? & ?)]; [auto|discriminate]) q z Hz Hr).
    + injection E as <-. apply K. cbn. intros [R|(? & ?)]; [auto|discriminate].
    + injection E as <-. apply K. cbn. intros [R|(? & ?)]; [auto|discriminate].
    + injection E as <-. apply K. cbn. intros [R|(? & ?)]; [auto|discriminate].
    + destruct (Nat.eqb_spec (length (ws s)) 0); injection E as <-; apply K; cbn; [intros [R|(? & ?)]; [auto|discriminate]|lia].
    + injection E as <-. apply K. intros _. apply Vx. eauto.
    + injection E as <-. intros q z Hz Hr. cbn in *. rewrite map_length. apply put_inv in Hz as [(-> & -> & _)|(_ & Hz)]; [|apply (V q z Hz Hr)].
      apply Vx. left. destruct Hr as [R|(? & ?)]; [exact R|discriminate].
    + destruct (running x) eqn:R; injection E as <-; apply K; cbn; intros [R'|(? & ?)]; auto; discriminate.
    + discriminate.
  - destruct (nth_error (prs s) p) as [x|] eqn:Hx; [|discriminate]. destruct (pc x) eqn:Epc; try discriminate. injection E as <-.
    intros q z Hz Hr. cbn in *. apply put_inv in Hz as [(-> & -> & _)|(_ & Hz)]; [|apply (V q z Hz Hr)].
    apply (V p x Hx). left. destruct Hr as [R|(? & ?)]; [exact R|discriminate].
  - assert (Hw : length (ws s) <= length (ws s') /\ prs s' = prs s \/ 0 < length (ws s')).
    { pose proof (g_ap s G) as Ha. unfold astep in E. destruct (ap s); try contradiction.
      - destruct cmd; try contradiction. destruct (n =? 0), (length (ws s) <? n), (n <? length (ws s)); injection E as <-; left; auto.
      - injection E as <-. left; auto.
      - injection E as <-. left; auto.
      - destruct (length (ws s) <? n); injection E as <-; cbn; rewrite ?app_length; cbn; left; split; auto; lia.
      - destruct (created s); injection E as <-; left; auto.
      - discriminate.
      - injection E as <-. cbn. rewrite map_length. left; auto.
      - destruct Ha as (Ha & Hn). destruct (Nat.ltb_spec n (length (ws s))).
        + destruct (last (ws s) WDead); try discriminate. injection E as <-. cbn. rewrite len_removelast. right. lia.
        + injection E as <-. left; auto.
      - injection E as <-. left; auto. }
    intros p y Hy Hr. destruct Hw as [(Hw1 & Hw2)|Hw]; [|exact Hw]. rewrite Hw2 in Hy. specialize (V p y Hy Hr). lia.
  - destruct (ap s); try discriminate. injection E as <-. exact V.
Qed.

(** ** Measure of the work left for a group *)
Fixpoint sumw (f : wpc -> nat) (l : list wpc) : nat := match l with [] => 0 | w :: t => f w + sumw f t end.
Lemma sumw_put f : forall l i w w', nth_error l i = Some w -> sumw f (put l i w') + f w = sumw f l + f w'.
Proof.
  induction l as [|a l IH]; intros [|i] w w' H; cbn in *; try discriminate; [injection H as ->; lia|]. specialize (IH i w w' H). lia.
Qed.
Lemma sumw_wake f l : (f WSleep = f WWait) -> sumw f (map wake l) = sumw f l.
Proof. intros E. induction l as [|a l IH]; cbn [map sumw]; [reflexivity|]. rewrite IH. destruct a; cbn [wake]; auto. Qed.
Lemma sumw_le f g l : (forall w, f w <= g w) -> sumw f l <= sumw g l.
Proof. intros H. induction l as [|a l IH]; cbn; [lia|]. specialize (H a). lia. Qed.

(** Steps to the worker's next look at the queue. *)
Definition rk (w : wpc) : nat :=
  match w with
  | WDead => 0 | WExit => 1 | WPop => 1 | WCheck => 2 | WWait | WSleep => 3 | WHead => 4 | WCreated | WNotify _ => 5
  | WStart | WCmp _ _ => 6 | WDone _ => 7 | WExc _ => 8 | WEnd _ _ => 9 | WBegin _ _ => 10 | WLt _ _ => 11 | WGive _ => 12
  end.
Definition hp (p : nat) (w : wpc) : nat := match hold w with Some (q, _) => if q =? p then rk w else 0 | None => 0 end.
(** Number of queue entries up to the last one of p. *)
Fixpoint lp (p : nat) (q : list nat) : nat :=
  match q with [] => 0 | a :: t => match lp p t with O => if a =? p then 1 else 0 | S k => S (S k) end end.
Definition phi (p : nat) (s : pool) : nat :=
  match lp p (tasks s) with O => sumw (hp p) (ws s) | S k => 13 * S k + sumw rk (ws s) end.

Lemma lp_zero p q : lp p q = 0 <-> count_occ Nat.eq_dec q p = 0.
Proof.
  induction q as [|a t IH]; cbn; [tauto|]. destruct (Nat.eq_dec a p) as [->|N]; [rewrite Nat.eqb_refl; destruct (lp p t); split; discriminate|].
  destruct (Nat.eqb_spec a p); [contradiction|]. destruct (lp p t); [tauto|]. split; intros H; [discriminate|]. apply IH in H. discriminate.
Qed.
Lemma lp_app_other p q r n : r <> p -> lp p (q ++ repeat r n) = lp p q.
Proof.
  intros N. induction q as [|a t IH]; cbn; [|rewrite IH; reflexivity].
  induction n as [|n IH]; cbn; [reflexivity|]. rewrite IH. destruct (Nat.eqb_spec r p); congruence.
Qed.
Lemma hp_le p w : hp p w <= rk w.
Proof. unfold hp. destruct (hold w) as [[q st]|]; [destruct (q =? p)|]; lia. Qed.

Definition holds (p : nat) (w : wpc) : Prop := exists st, hold w = Some (p, st).

Ltac dif := match goal with |- context [if ?b then _ else _] => destruct b | H : context [if ?b then _ else _] |- _ => destruct b end.
Lemma wstep_phi s i threw s' p : ginv s -> wstep s i threw = Next s' ->
  phi p s' <= phi p s /\
  (lp p (tasks s) > 0 \/ (exists w, nth_error (ws s) i = Some w /\ holds p w) -> phi p s' < phi p s).
Proof.
  intros G E.
  assert (Main : exists w w', nth_error (ws s) i = Some w /\ ws s' = put (ws s) i w' /\
    ((tasks s' = tasks s /\ (lp p (tasks s) > 0 -> rk w' < rk w) /\ (holds p w -> hp p w' < hp p w) /\ (~ holds p w -> hp p w' = 0)) \/
     (exists q, w = WPop /\ w' = WGive q /\ tasks s = q :: tasks s'))).
  { unfold wstep in E. destruct (nth_error (ws s) i) as [w|] eqn:H; [|discriminate]. exists w.
    assert (Kp : forall p f, with_p s p f = Next s' -> exists x, nth_error (prs s) p = Some x /\ f x = Next s').
    { intros q f E'. unfold with_p in E'. destruct (nth_error (prs s) q); [eauto|discriminate]. }
    assert (Kb : forall l f, with_b l i f = Next s' -> exists b, nth_error l i = Some b /\ f b = Next s').
    { intros l f E'. unfold with_b in E'. destruct (nth_error l i); [eauto|discriminate]. }
    assert (Kr : lp p (tasks s) > 0 -> forall b, nth_error (runf s) i = Some b -> b = true).
    { intros Hl b Hb. apply (g_run s G) with (i := i); auto. intros Z. rewrite Z in Hl. cbn in Hl. lia. }
    assert (Hh : forall w, ~ holds p w -> hp p w = 0).
    { intros v Hv. unfold hp. destruct (hold v) as [[q st]|] eqn:Hd; [|reflexivity]. destruct (Nat.eqb_spec q p) as [->|]; [|reflexivity].
      exfalso. apply Hv. exists st. exact Hd. }
    assert (K0 : forall w', (lp p (tasks s) > 0 -> rk w' < rk w) -> (forall q st, hold w' = Some (q, st) -> rk w' < rk w /\ exists st', hold w = Some (q, st')) ->
       (lp p (tasks s) > 0 -> rk w' < rk w) /\ (holds p w -> hp p w' < hp p w) /\ (~ holds p w -> hp p w' = 0)).
    { intros w' H1 H2. split; [exact H1|]. split.
      - intros (st & Hs). assert (Z : hp p w = rk w) by (unfold hp; rewrite Hs, Nat.eqb_refl; reflexivity). rewrite Z.
        unfold hp. destruct (hold w') as [[q st']|] eqn:Hw'; [|destruct w; cbn in *; try discriminate; lia].
        destruct (H2 q st' eq_refl) as (H3 & _). destruct (q =? p); [exact H3|]. destruct w; cbn in *; try discriminate; lia.
      - intros Hn. unfold hp. destruct (hold w') as [[q st']|] eqn:Hw'; [|reflexivity]. destruct (Nat.eqb_spec q p) as [->|]; [|reflexivity].
        destruct (H2 p st' eq_refl) as (_ & st'' & H3). exfalso. apply Hn. exists st''. exact H3. }
    destruct w; try discriminate E.
    all: try (apply Kp in E as (x & Hx & E)); try (apply Kb in E as (b & Hb & E)).
    6:{ destruct (tasks s) as [|q t] eqn:Et.
        - apply Kb in E as (b & Hb & E). injection E as <-. exists WHead. split; [reflexivity|]. split; [reflexivity|]. left.
          split; [exact Et|]. apply K0; [cbn; lia|discriminate].
        - injection E as <-. exists (WGive q). split; [reflexivity|]. split; [reflexivity|]. right. exists q. auto. }
    all: clear Kp Kb; injection E as <-; eexists; (split; [reflexivity|]); (split; [reflexivity|]); left; (split; [reflexivity|]); apply K0; clear K0.
    all: try (intros q st Hq; repeat dif; cbn in Hq; inversion Hq; subst; cbn; (split; [lia|eauto]); fail).
    all: try (intros Hl; try rewrite (Kr Hl b Hb); repeat dif; cbn; lia). }
  destruct Main as (w & w' & H & Ew & [(Et & Hr & Hp1 & Hp2)|(q & -> & -> & Et)]); unfold phi; rewrite Ew.
  - rewrite Et. pose proof (sumw_put rk _ _ _ w' H) as S1. pose proof (sumw_put (hp p) _ _ _ w' H) as S2.
    destruct (lp p (tasks s)) as [|k].
    + assert (Hd : holds p w \/ ~ holds p w).
      { unfold holds. destruct (hold w) as [[q st]|]; [|right; intros (? & ?); discriminate].
        destruct (Nat.eq_dec q p) as [->|Nq]; [left; eauto|right; intros (? & ?); congruence]. }
      destruct Hd as [Hd|Hd].
      * specialize (Hp1 Hd). split; [lia|]. intros _. lia.
      * specialize (Hp2 Hd). split; [lia|]. intros [Z|(v & Hv & Z)]; [lia|]. assert (v = w) by congruence. subst v. contradiction.
    + specialize (Hr ltac:(lia)). lia.
  - rewrite Et. cbn [lp]. pose proof (sumw_put rk _ _ _ (WGive q) H) as S1. pose proof (sumw_put (hp p) _ _ _ (WGive q) H) as S2.
    cbn [rk] in S1. unfold hp at 2 4 in S2. cbn [hold] in S2. cbn [rk] in S2.
    pose proof (sumw_le (hp p) rk (put (ws s) i (WGive q)) (hp_le p)) as S3.
    destruct (lp p (tasks s')) as [|k]; [|lia]. destruct (Nat.eqb_spec q p); [lia|].
    split; [lia|]. intros [Z|(v & Hv & (st & Z))]; [lia|]. assert (v = WPop) by congruence. subst v. discriminate.
Qed.

(** ** The other threads do not undo progress *)
Definition going (p : nat) (s : pool) : Prop := exists x, nth_error (prs s) p = Some x /\ running x = true /\ forall n, pc x <> CInsert n.
Definition stopped (p : nat) (s : pool) : Prop := exists x, nth_error (prs s) p = Some x /\ running x = false.
Definition unmanaged (l : label) : Prop := match l with LA _ | LAWake => False | _ => True end.

Lemma going_normal p s : ginv s -> going p s -> exists x, nth_error (prs s) p = Some x /\ running x = true /\
  (pc x = CIdle \/ pc x = CWait \/ pc x = CSleep) /\ 0 < tcount x /\
  N p (flast (tcount x)) (ws s) = b2n (compl x =? tcount x) /\ normal x p (count_occ Nat.eq_dec (tasks s) p) (ws s).
Proof.
  intros G (x & Hx & R & Hn). exists x. split; [exact Hx|]. split; [exact R|]. destruct (g_prov s G p x Hx) as [A B C D]. rewrite R in D.
  destruct D as (D1 & D2 & D3). destruct (pc x) eqn:E; try contradiction; auto 10. destruct (Hn n). reflexivity.
Qed.

Lemma other_phi s l s' p : ginv s -> going p s -> ok_label s l -> unmanaged l -> (forall i b, l <> LW i b) -> step s l = Next s' ->
  phi p s' = phi p s /\ lp p (tasks s') = lp p (tasks s) /\ going p s' /\
  forall i w, nth_error (ws s) i = Some w -> w <> WSleep -> nth_error (ws s') i = Some w.
Proof.
  intros G Hg O U NL E. destruct (going_normal p s G Hg) as (x & Hx & R & Pc & _).
  assert (Hns : forall n, pc x <> CInsert n) by (intros n Z; rewrite Z in Pc; destruct Pc as [|[|]]; discriminate).
  destruct l as [i threw|i|q cmd|q|cmd|]; cbn [step] in E; try contradiction; [destruct (NL i threw eq_refl)| | |].
  - destruct (nth_error (ws s) i) as [[]|] eqn:H; try discriminate. injection E as <-.
    split; [|split; [reflexivity|]; split; [exists x; auto|]].
    + unfold phi. cbn [tasks ws set_w]. pose proof (sumw_put rk _ _ _ WWait H). pose proof (sumw_put (hp p) _ _ _ WWait H). cbn in H0, H1.
      destruct (lp p (tasks s)); lia.
    + intros j w Hj Hw. cbn [ws set_w]. rewrite put_other; [exact Hj|]. intros ->. congruence.
  - unfold cstep in E. destruct (nth_error (prs s) q) as [y|] eqn:Hy; [|discriminate].
    assert (K : forall z, (q = p -> running z = true /\ forall n, pc z <> CInsert n) -> going p (set_p s q z)).
    { intros z Hz. unfold going. cbn [prs set_p]. destruct (Nat.eq_dec q p) as [->|Nq].
      - exists z. rewrite (put_same _ _ _ _ Hy). split; [reflexivity|auto].
      - rewrite put_other by congruence. exists x. auto. }
    assert (Ey : q = p -> y = x) by (intros ->; congruence).
    destruct (pc y) eqn:Epc.
    + destruct cmd as [n| |].
      * destruct (negb (running y) && (0 <? n)) eqn:Er; injection E as <-; repeat split; auto.
        apply K. intros Eq. rewrite (Ey Eq), R in Er. discriminate.
      * injection E as <-; repeat split; auto. apply K. intros Eq. rewrite (Ey Eq). cbn. split; [exact R|discriminate].
      * injection E as <-. cbn in O. assert (K' := K (mkP (tcount y) (given y) (compl y) (running y) (exc y) CWait (plog y))).
        unfold phi. cbn [tasks ws set_tasks set_p]. rewrite filter_notin by exact O. repeat split; auto.
        apply K'. intros Eq. rewrite (Ey Eq). cbn. split; [exact R|discriminate].
    + injection E as <-; repeat split; auto. apply K. intros Eq. rewrite (Ey Eq) in Epc. rewrite Epc in Pc. destruct Pc as [|[|]]; discriminate.
    + injection E as <-; repeat split; auto. apply K. intros Eq. rewrite (Ey Eq) in Epc. rewrite Epc in Pc. destruct Pc as [|[|]]; discriminate.
    + injection E as <-; repeat split; auto. apply K. intros Eq. rewrite (Ey Eq) in Epc. rewrite Epc in Pc. destruct Pc as [|[|]]; discriminate.
    + destruct (length (ws s) =? 0); injection E as <-; repeat split; auto; apply K; intros Eq; rewrite (Ey Eq) in Epc; rewrite Epc in Pc; destruct Pc as [|[|]]; discriminate.
    + injection E as <-; repeat split; auto. apply K. intros Eq. rewrite (Ey Eq) in Epc. rewrite Epc in Pc. destruct Pc as [|[|]]; discriminate.
    + assert (Nq : q <> p) by (intros Eq; rewrite (Ey Eq) in Epc; rewrite Epc in Pc; destruct Pc as [|[|]]; discriminate).
      injection E as <-. unfold phi, going. cbn [tasks ws prs]. rewrite lp_app_other by exact Nq.
      rewrite !sumw_wake by reflexivity. rewrite put_other by congruence. repeat split; auto.
      intros i w Hi Hw. rewrite nth_map, Hi. destruct w; try reflexivity. congruence.
    + destruct (running y) eqn:Er; injection E as <-; repeat split; auto; apply K; intros Eq; rewrite (Ey Eq) in *; cbn; [|congruence].
      split; [reflexivity|discriminate].
    + discriminate.
  - destruct (nth_error (prs s) q) as [y|] eqn:Hy; [|discriminate]. destruct (pc y) eqn:Epc; try discriminate. injection E as <-.
    repeat split; auto. unfold going. cbn [prs set_p]. destruct (Nat.eq_dec q p) as [->|Nq].
    + assert (y = x) by congruence. subst y. eexists. rewrite (put_same _ _ _ _ Hy). split; [reflexivity|]. cbn. split; [exact R|discriminate].
    + rewrite put_other by congruence. exists x. auto.
Qed.

Lemma wstep_going s i b s' p : ginv s -> going p s -> wstep s i b = Next s' -> going p s' \/ stopped p s'.
Proof.
  intros G (x & Hx & R & Hn) E. destruct (wstep_frame _ _ _ _ E) as (w & w' & H & Ew & _ & F & F').
  destruct (F' p x Hx) as (y & Hy). destruct (F p y Hy) as (x' & Hx' & _ & F1 & _ & F3). assert (x' = x) by congruence. subst x'.
  destruct (running y) eqn:Ry; [left|right; exists y; auto]. exists y. split; [exact Hy|]. split; [exact Ry|]. intros n Z. apply (Hn n). auto.
Qed.
Lemma wstep_other_worker s i b s' j w : wstep s i b = Next s' -> j <> i -> nth_error (ws s) j = Some w -> nth_error (ws s') j = Some w.
Proof. intros E Nj Hj. destruct (wstep_frame _ _ _ _ E) as (v & v' & _ & Ew & _). rewrite Ew, put_other by exact Nj. exact Hj. Qed.

(** ** Who can move *)
Definition can_move (s : pool) (i : nat) : Prop := forall b, exists s', wstep s i b = Next s'.
Lemma can_move_iff s i w : ginv s -> nth_error (ws s) i = Some w -> w <> WSleep -> w <> WDead -> can_move s i.
Proof.
  intros G H N1 N2 b. pose proof (wstep_ok s i b G) as S. destruct (wstep s i b) eqn:E; [|contradiction|eauto]. exfalso.
  unfold wstep in E. rewrite H in E. destruct (exit_get s i w G H) as (eb & He). destruct (run_get s i w G H) as (rb & Hr).
  assert (Hp : forall p st, hold w = Some (p, st) -> exists x, nth_error (prs s) p = Some x).
  { intros p st Hh. apply prov_get. apply (g_hold s G i w p st H Hh). }
  destruct w; try discriminate; try contradiction; unfold with_b, with_p in E; rewrite ?He, ?Hr in E; try discriminate.
  all: try (destruct (tasks s); discriminate).
  all: match goal with Hp : forall p0 st, hold ?w = _ -> _ |- _ => destruct (Hp _ _ eq_refl) as (x & Hx) end; rewrite Hx in E; discriminate.
Qed.
Lemma holder_moves s i w p : ginv s -> nth_error (ws s) i = Some w -> holds p w -> can_move s i.
Proof. intros G H (st & Hs). apply (can_move_iff s i w G H); intros ->; discriminate. Qed.
Lemma worker0_moves s p : ginv s -> winv s -> going p s -> 0 < lp p (tasks s) -> can_move s 0.
Proof.
  intros G V (x & Hx & R & Hn) L. pose proof (V p x Hx (or_introl R)) as W.
  destruct (nth_error (ws s) 0) as [w|] eqn:H; [|apply nth_error_None in H; lia].
  assert (Ht : tasks s <> []) by (intros Z; rewrite Z in L; cbn in L; lia).
  apply (can_move_iff s 0 w G H).
  - intros ->. pose proof (g_sleep s G 0 H) as Z. pose proof (g_run s G Ht 0 false Z). discriminate.
  - intros ->. pose proof (g_dead s G 0 (or_intror H)) as Z. apply (g_exit s G) in Z. pose proof (g_ap s G) as Ha. destruct (ap s); try contradiction; lia.
Qed.
Lemma holder_exists s p : ginv s -> going p s -> lp p (tasks s) = 0 -> exists i w, nth_error (ws s) i = Some w /\ holds p w.
Proof.
  intros G Hg L. destruct (going_normal p s G Hg) as (x & Hx & R & Pc & T & F & (M1 & M2 & _)). apply lp_zero in L. rewrite L in M1.
  assert (K : forall f, 0 < N p f (ws s) -> exists i w, nth_error (ws s) i = Some w /\ holds p w).
  { intros f Hf. destruct (N_pos p f _ Hf) as (i & w & st & A & B & _). exists i, w. split; [exact A|exists st; exact B]. }
  destruct (Nat.eq_dec (N p fgive (ws s)) 0) as [Z1|Z1]; [|apply (K fgive); lia].
  destruct (Nat.eq_dec (N p fin_ (ws s)) 0) as [Z2|Z2]; [|apply (K fin_); lia].
  apply (K (flast (tcount x))). rewrite F. destruct (Nat.eqb_spec (compl x) (tcount x)); cbn; lia.
Qed.

(** ** Fair infinite executions *)
Section Fair.
Variable sg : nat -> pool.
Variable la : nat -> label.
Hypothesis Hstep : forall k, step (sg k) (la k) = Next (sg (S k)).
Hypothesis Hok : forall k, ok_label (sg k) (la k).
Hypothesis Hun : forall k, unmanaged (la k).
Hypothesis Hfair : forall i k, exists k', k <= k' /\ ((exists b, la k' = LW i b) \/ ~ can_move (sg k') i).
Hypothesis H0 : ginv (sg 0) /\ winv (sg 0).

Lemma tr_inv k : ginv (sg k) /\ winv (sg k).
Proof.
  induction k as [|k (G & V)]; [exact H0|]. pose proof (step_ok _ _ G (Hok k)) as S. rewrite (Hstep k) in S.
  split; [exact S|]. apply (winv_step _ _ _ G V (Hok k) (Hstep k)).
Qed.

Lemma tr_step p k : going p (sg k) -> (going p (sg (S k)) \/ stopped p (sg (S k))) /\ phi p (sg (S k)) <= phi p (sg k).
Proof.
  intros Hg. destruct (tr_inv k) as (G & _). pose proof (Hstep k) as E.
  destruct (la k) as [i b| | | | |] eqn:El.
  1:{ split; [apply (wstep_going _ _ _ _ _ G Hg E)|]. apply (wstep_phi _ _ _ _ p G E). }
  all: pose proof (Hok k) as O; pose proof (Hun k) as U; rewrite El in O, U;
    destruct (other_phi _ _ _ p G Hg O U ltac:(discriminate) E) as (A & _ & B & _); split; [auto|lia].
Qed.

(** From a state where p is running: the measure gets smaller, or p stops. *)
Definition better (p k : nat) : Prop := exists j, k <= j /\ (stopped p (sg j) \/ going p (sg j) /\ phi p (sg j) < phi p (sg k)).

Lemma keep_queue p k : going p (sg k) -> 0 < lp p (tasks (sg k)) -> forall d,
  better p k \/ (going p (sg (k + d)) /\ 0 < lp p (tasks (sg (k + d))) /\ phi p (sg (k + d)) <= phi p (sg k)).
Proof.
  intros Hg Hl. induction d as [|d IH]; [rewrite Nat.add_0_r; auto|]. destruct IH as [IH|(A & B & C)]; [auto|].
  rewrite Nat.add_succ_r. destruct (tr_inv (k + d)) as (G & _). destruct (tr_step p (k + d) A) as ([T|T] & T').
  2:{ left. exists (S (k + d)). split; [lia|]. auto. }
  pose proof (Hstep (k + d)) as E. destruct (la (k + d)) as [i b| | | | |] eqn:El.
  1:{ left. exists (S (k + d)). split; [lia|]. right. split; [exact T|]. destruct (wstep_phi _ _ _ _ p G E) as (_ & Q). specialize (Q (or_introl B)). lia. }
  all: right; pose proof (Hok (k + d)) as O; pose proof (Hun (k + d)) as U; rewrite El in O, U;
    destruct (other_phi _ _ _ p G A O U ltac:(discriminate) E) as (_ & Q & _); rewrite Q; split; [exact T|split; [exact B|lia]].
Qed.
Lemma keep_holder p k i w : going p (sg k) -> nth_error (ws (sg k)) i = Some w -> holds p w -> forall d,
  better p k \/ (going p (sg (k + d)) /\ nth_error (ws (sg (k + d))) i = Some w /\ phi p (sg (k + d)) <= phi p (sg k)).
Proof.
  intros Hg Hw Hh. induction d as [|d IH]; [rewrite Nat.add_0_r; auto|]. destruct IH as [IH|(A & B & C)]; [auto|].
  rewrite Nat.add_succ_r. destruct (tr_inv (k + d)) as (G & _). destruct (tr_step p (k + d) A) as ([T|T] & T').
  2:{ left. exists (S (k + d)). split; [lia|]. auto. }
  pose proof (Hstep (k + d)) as E. destruct (la (k + d)) as [j b| | | | |] eqn:El.
  1:{ destruct (Nat.eq_dec j i) as [->|Nj].
      - left. exists (S (k + d)). split; [lia|]. right. split; [exact T|]. destruct (wstep_phi _ _ _ _ p G E) as (_ & Q).
        assert (phi p (sg (S (k + d))) < phi p (sg (k + d))) by (apply Q; right; exists w; auto). lia.
      - right. split; [exact T|]. split; [|lia]. apply (wstep_other_worker _ _ _ _ i w E); auto. }
  all: right; pose proof (Hok (k + d)) as O; pose proof (Hun (k + d)) as U; rewrite El in O, U;
    destruct (other_phi _ _ _ p G A O U ltac:(discriminate) E) as (_ & _ & _ & Q); (split; [exact T|split; [|lia]]);
    apply Q; [exact B|destruct Hh as (st & Hh); intros ->; discriminate].
Qed.

Lemma gets_better p k : going p (sg k) -> better p k.
Proof.
  intros Hg. destruct (tr_inv k) as (G & V). destruct (Nat.eq_dec (lp p (tasks (sg k))) 0) as [L|L].
  - destruct (holder_exists _ p G Hg L) as (i & w & Hw & Hh). destruct (Hfair i k) as (k' & Hk & F).
    destruct (keep_holder p k i w Hg Hw Hh (k' - k)) as [|(A & B & C)]; [assumption|]. replace (k + (k' - k)) with k' in * by lia.
    destruct (tr_inv k') as (G' & _). destruct F as [(b & F)|F]; [|destruct (F (holder_moves _ i w p G' B Hh))].
    pose proof (Hstep k') as E. rewrite F in E. destruct (wstep_phi _ _ _ _ p G' E) as (_ & Q).
    assert (phi p (sg (S k')) < phi p (sg k')) by (apply Q; right; exists w; auto).
    destruct (tr_step p k' A) as ([T|T] & _); exists (S k'); (split; [lia|]); [right; split; [exact T|lia]|auto].
  - destruct (Hfair 0 k) as (k' & Hk & F).
    destruct (keep_queue p k Hg ltac:(lia) (k' - k)) as [|(A & B & C)]; [assumption|]. replace (k + (k' - k)) with k' in * by lia.
    destruct (tr_inv k') as (G' & V'). destruct F as [(b & F)|F]; [|destruct (F (worker0_moves _ p G' V' A B))].
    pose proof (Hstep k') as E. rewrite F in E. destruct (wstep_phi _ _ _ _ p G' E) as (_ & Q). specialize (Q (or_introl B)).
    destruct (tr_step p k' A) as ([T|T] & _); exists (S k'); (split; [lia|]); [right; split; [exact T|lia]|auto].
Qed.
Theorem fair_stops p : forall k, going p (sg k) -> exists k', k <= k' /\ stopped p (sg k').
Proof.
  assert (M : forall m k, phi p (sg k) < m -> going p (sg k) -> exists k', k <= k' /\ stopped p (sg k')).
  { induction m as [|m IH]; intros k Hm Hg; [lia|]. destruct (gets_better p k Hg) as (j & Hj & [S|(A & B)]); [eauto|].
    destruct (IH j ltac:(lia) A) as (k' & Hk' & S). exists k'. split; [lia|exact S]. }
  intros k. apply (M (S (phi p (sg k)))). lia.
Qed.
End Fair.
