(** Invariants of the thread pool model. *)
From Coq Require Import List Arith Bool Lia Permutation.
From Verif Require Import Pool.
Import ListNotations.

Definition b2n (b : bool) : nat := if b then 1 else 0.

(** ** Lists *)
Lemma put_length {A} : forall (l : list A) i x, length (put l i x) = length l.
Proof. induction l as [|a l IH]; intros [|i] x; cbn; auto. Qed.
Lemma put_nth {A} : forall (l : list A) i x j, nth_error (put l i x) j =
  if (j =? i) && (i <? length l) then Some x else nth_error l j.
Proof.
  induction l as [|a l IH]; intros [|i] x [|j]; cbn; auto.
  - rewrite andb_false_r. reflexivity.
  - rewrite IH. reflexivity.
Qed.
Lemma put_same {A} (l : list A) i x y : nth_error l i = Some y -> nth_error (put l i x) i = Some x.
Proof. intros H. rewrite put_nth, Nat.eqb_refl. assert (i < length l) by (apply nth_error_Some; congruence).
  destruct (Nat.ltb_spec i (length l)); [reflexivity|lia]. Qed.
Lemma put_other {A} (l : list A) i x j : j <> i -> nth_error (put l i x) j = nth_error l j.
Proof. intros H. rewrite put_nth. destruct (Nat.eqb_spec j i); [contradiction|reflexivity]. Qed.
Lemma put_inv {A} (l : list A) i x j y : nth_error (put l i x) j = Some y ->
  (j = i /\ y = x /\ i < length l) \/ (j <> i /\ nth_error l j = Some y).
Proof.
  rewrite put_nth. destruct (Nat.eqb_spec j i); cbn [andb]; [|auto]. destruct (Nat.ltb_spec i (length l)); intros E.
  - left. injection E as <-. auto.
  - subst j. assert (i < length l) by (apply nth_error_Some; congruence). lia.
Qed.

(** ** What a worker holds *)
Inductive stage := SGive | SLt (t : nat) | SBegin (t : nat) | SEnd (t : nat) | SExc | SDone | SCmp (c : nat) | SNotify.
Definition hold (w : wpc) : option (nat * stage) :=
  match w with
  | WGive p => Some (p, SGive) | WLt p t => Some (p, SLt t) | WBegin p t => Some (p, SBegin t) | WEnd p t => Some (p, SEnd t)
  | WExc p => Some (p, SExc) | WDone p => Some (p, SDone) | WCmp p c => Some (p, SCmp c) | WNotify p => Some (p, SNotify)
  | _ => None
  end.
Definition hw (p : nat) (f : stage -> bool) (w : wpc) : nat :=
  match hold w with Some (q, st) => if q =? p then b2n (f st) else 0 | None => 0 end.
Fixpoint N (p : nat) (f : stage -> bool) (l : list wpc) : nat :=
  match l with [] => 0 | w :: t => hw p f w + N p f t end.

Lemma N_put p f : forall l i w w', nth_error l i = Some w -> N p f (put l i w') + hw p f w = N p f l + hw p f w'.
Proof.
  induction l as [|a l IH]; intros [|i] w w' H; cbn in *; try discriminate.
  - injection H as ->. lia.
  - specialize (IH i w w' H). lia.
Qed.
Lemma N_app p f l l' : N p f (l ++ l') = N p f l + N p f l'.
Proof. induction l as [|a l IH]; cbn; [reflexivity|lia]. Qed.
Lemma N_wake p f l : N p f (map wake l) = N p f l.
Proof. induction l as [|a l IH]; cbn [map N]; [reflexivity|]. rewrite IH. destruct a; reflexivity. Qed.
Lemma N_le p (f g : stage -> bool) l : (forall st, f st = true -> g st = true) -> N p f l <= N p g l.
Proof.
  intros H. induction l as [|a l IH]; cbn [N]; [lia|]. unfold hw. destruct (hold a) as [[q st]|]; [|lia].
  destruct (q =? p); [|lia]. specialize (H st). destruct (f st), (g st); cbn; try lia.
Qed.
Lemma N_or p (f g h : stage -> bool) l : (forall st, f st = true -> g st = true \/ h st = true) -> N p f l <= N p g l + N p h l.
Proof.
  intros H. induction l as [|a l IH]; cbn [N]; [lia|]. unfold hw. destruct (hold a) as [[q st]|]; [|lia].
  destruct (q =? p); [|lia]. specialize (H st). destruct (f st), (g st), (h st); cbn; try lia.
Qed.
Lemma N_ext p (f g : stage -> bool) l : (forall st, f st = g st) -> N p f l = N p g l.
Proof. intros H. apply Nat.le_antisymm; apply N_le; intros st; rewrite H; auto. Qed.
Lemma N_ge p f : forall l i w, nth_error l i = Some w -> hw p f w <= N p f l.
Proof. induction l as [|a l IH]; intros [|i] w H; cbn in *; try discriminate; [injection H as ->; lia|]. specialize (IH i w H). lia. Qed.
Lemma N_pos p f : forall l, 0 < N p f l -> exists i w st, nth_error l i = Some w /\ hold w = Some (p, st) /\ f st = true.
Proof.
  induction l as [|a l IH]; cbn [N]; intros H; [lia|]. destruct (Nat.eq_dec (hw p f a) 0) as [Z|Z].
  - destruct IH as (i & w & st & A & B); [lia|]. exists (S i), w, st. auto.
  - exists 0, a. unfold hw in Z. destruct (hold a) as [[q st]|] eqn:E; [|contradiction]. destruct (Nat.eqb_spec q p) as [->|]; [|contradiction].
    exists st. destruct (f st) eqn:F; [auto|contradiction].
Qed.

(** ** Reading a log *)
Fixpoint begins (t : nat) (l : list ev) : nat :=
  match l with
  | [] => 0 | EStart _ :: _ => 0
  | EBegin u :: r => b2n (u =? t) + begins t r
  | _ :: r => begins t r
  end.
Fixpoint ends (t : nat) (l : list ev) : nat :=
  match l with
  | [] => 0 | EStart _ :: _ => 0
  | EEnd u _ :: r => b2n (u =? t) + ends t r
  | _ :: r => ends t r
  end.
Fixpoint gsize (l : list ev) : nat := match l with [] => 0 | EStart n :: _ => n | _ :: r => gsize r end.
Fixpoint threw_since (l : list ev) : bool :=
  match l with
  | [] => false | EWaited _ :: _ => false
  | EEnd _ b :: r => b || threw_since r
  | _ :: r => threw_since r
  end.
Definition log_done (l : list ev) : Prop := forall t, begins t l = b2n (t <? gsize l) /\ ends t l = b2n (t <? gsize l).
Fixpoint waits_ok (l : list ev) : Prop :=
  match l with
  | [] => True
  | e :: r => match e with EWaited ok => log_done r /\ ok = negb (threw_since r) | _ => True end /\ waits_ok r
  end.

(** ** Invariant of one provider *)
Definition fgive st := match st with SGive => true | _ => false end.
Definition fin_ st := match st with SLt _ | SBegin _ | SEnd _ | SExc | SDone => true | _ => false end.
Definition flast n st := match st with SCmp c => c =? n | SNotify => true | _ => false end.
Definition fover n st := match st with SCmp c => (n <? c) || (c =? 0) | _ => false end.
Definition fexc st := match st with SExc => true | _ => false end.
Definition fb t st := match st with SLt u | SBegin u => u =? t | _ => false end.
Definition fe t st := match st with SLt u | SBegin u | SEnd u => u =? t | _ => false end.

Definition active (p : nat) (x : prov) (q : nat) (l : list wpc) : Prop :=
  0 < tcount x /\ N p (flast (tcount x)) l = b2n (compl x =? tcount x) /\
  match pc x with
  | CInsert n => n = tcount x /\ q = 0 /\ N p fgive l = 0 /\ N p fin_ l = 0 /\ given x = 0 /\ compl x = 0 /\ log_done (plog x)
  | CIdle | CWait | CSleep =>
      given x + q + N p fgive l = tcount x /\ compl x + N p fin_ l = given x /\ gsize (plog x) = tcount x /\
      forall t, begins t (plog x) + N p (fb t) l = b2n (t <? given x) /\ ends t (plog x) + N p (fe t) l = b2n (t <? given x)
  | _ => False
  end.
Definition quiet (p : nat) (x : prov) (q : nat) (l : list wpc) : Prop :=
  q = 0 /\ N p fgive l = 0 /\ N p fin_ l = 0 /\ N p (flast (tcount x)) l = 0 /\ log_done (plog x) /\
  match pc x with
  | CIdle | CWait => True
  | CCount n => 0 < n /\ tcount x <= n
  | CGiven n => 0 < n /\ tcount x = n
  | CCompl n => 0 < n /\ tcount x = n /\ given x = 0
  | CAdd n | CRunning n => 0 < n /\ tcount x = n /\ given x = 0 /\ compl x = 0
  | _ => False
  end.
Record pinv (p : nat) (x : prov) (q : nat) (l : list wpc) : Prop := {
  pi_over : N p (fover (tcount x)) l = 0;
  pi_thr : threw_since (plog x) = exc x || (0 <? N p fexc l);
  pi_log : waits_ok (plog x);
  pi_run : if running x then active p x q l else quiet p x q l }.

Definition sameN (p : nat) (l l' : list wpc) : Prop := forall f, N p f l' = N p f l.
Lemma pinv_same p x q l l' : sameN p l l' -> pinv p x q l -> pinv p x q l'.
Proof.
  intros S [A B C D]. constructor; rewrite ?S; auto. destruct (running x).
  - destruct D as (D1 & D2 & D3). repeat split; rewrite ?S; auto. destruct (pc x); rewrite ?S; auto.
    + destruct D3 as (? & ? & ? & D3). repeat split; auto; rewrite S; apply D3.
    + destruct D3 as (? & ? & ? & D3). repeat split; auto; rewrite S; apply D3.
    + destruct D3 as (? & ? & ? & D3). repeat split; auto; rewrite S; apply D3.
  - unfold quiet in *. rewrite !S. exact D.
Qed.
Lemma sameN_put p l i w w' : nth_error l i = Some w -> (forall f, hw p f w = hw p f w') -> sameN p l (put l i w').
Proof. intros H E f. pose proof (N_put p f l i w w' H). specialize (E f). lia. Qed.
Lemma sameN_wake p l : sameN p l (map wake l).
Proof. intros f. apply N_wake. Qed.

(** ** Invariant of the pool *)
Record ginv (s : pool) : Prop := {
  g_len : length (runf s) = length (exitf s);
  g_ap : match ap s with
         | AIdle | AGrowWait | AGrowSleep => length (ws s) = length (runf s)
         | AGrowVec n => length (ws s) = length (runf s) /\ length (ws s) < n
         | AGrowCnt n | AGrowSpawn n => length (runf s) = n /\ length (ws s) <= n
         | AShrinkFlag n => length (ws s) = length (runf s) /\ 0 < n < length (ws s)
         | AShrinkJoin n => length (ws s) = length (runf s) /\ 0 < n <= length (ws s)
         | AShrinkPop n => length (runf s) = S (length (ws s)) /\ 0 < n <= length (ws s)
         | _ => False
         end;
  g_exit : forall i, nth_error (exitf s) i = Some true ->
           match ap s with AShrinkJoin n | AShrinkPop n => n <= i | _ => False end;
  g_sleep : forall i, nth_error (ws s) i = Some WSleep -> nth_error (runf s) i = Some false;
  g_run : tasks s <> [] -> forall i b, nth_error (runf s) i = Some b -> b = true;
  g_dead : forall i, nth_error (ws s) i = Some WExit \/ nth_error (ws s) i = Some WDead -> nth_error (exitf s) i = Some true;
  g_idx : forall p, In p (tasks s) -> p < length (prs s);
  g_hold : forall i w p st, nth_error (ws s) i = Some w -> hold w = Some (p, st) -> p < length (prs s);
  g_prov : forall p x, nth_error (prs s) p = Some x -> pinv p x (count_occ Nat.eq_dec (tasks s) p) (ws s) }.

(** Steps in which nothing is cancelled and no group is smaller than the one before it. *)
Definition ok_label (s : pool) (l : label) : Prop :=
  match l with
  | LC p (Run n) => forall x, nth_error (prs s) p = Some x -> pc x = CIdle -> tcount x <= n
  | LC p Destroy => ~ In p (tasks s)
  | LA (Resize _) => True
  | LA _ => False
  | _ => True
  end.

Lemma ginv_init n : ginv (sinit n).
Proof.
  constructor; cbn; auto; try contradiction.
  - intros [|i]; discriminate.
  - intros [|i]; discriminate.
  - intros [|i] [|]; discriminate.
  - intros [|i]; discriminate.
  - intros p x H. apply nth_error_In in H. apply repeat_spec in H. subst x. constructor; cbn; auto.
    unfold quiet. cbn. repeat split; auto.
Qed.

(** ** Worker steps *)
Lemma vlen s i w : ginv s -> nth_error (ws s) i = Some w -> i < length (runf s).
Proof.
  intros G H. assert (i < length (ws s)) by (apply nth_error_Some; congruence).
  pose proof (g_ap s G) as A. destruct (ap s); try lia; contradiction.
Qed.
Lemma run_get s i w : ginv s -> nth_error (ws s) i = Some w -> exists b, nth_error (runf s) i = Some b.
Proof. intros G H. pose proof (vlen s i w G H). destruct (nth_error (runf s) i) eqn:E; eauto. apply nth_error_None in E. lia. Qed.
Lemma exit_get s i w : ginv s -> nth_error (ws s) i = Some w -> exists b, nth_error (exitf s) i = Some b.
Proof. intros G H. pose proof (vlen s i w G H). rewrite (g_len s G) in *. destruct (nth_error (exitf s) i) eqn:E; eauto. apply nth_error_None in E. lia. Qed.
Lemma prov_get s p : p < length (prs s) -> exists x, nth_error (prs s) p = Some x.
Proof. intros H. destruct (nth_error (prs s) p) eqn:E; eauto. apply nth_error_None in E. lia. Qed.

(** A worker moves without touching a provider, the queue or the flags. *)
Lemma ginv_move s i w w' : ginv s -> nth_error (ws s) i = Some w ->
  (forall p f, hw p f w = hw p f w') ->
  (w' = WSleep -> nth_error (runf s) i = Some false) ->
  (w' = WExit \/ w' = WDead -> nth_error (exitf s) i = Some true) ->
  (forall p st, hold w' = Some (p, st) -> p < length (prs s)) ->
  ginv (set_w s i w').
Proof.
  intros G H E S X Y. destruct G. constructor; cbn [ap ws runf exitf tasks prs set_w]; auto.
  - rewrite put_length. exact g_ap0.
  - intros j Hj. apply put_inv in Hj as [(-> & E' & _)|(_ & Hj)]; [apply S; congruence|apply g_sleep0; exact Hj].
  - intros j [Hj|Hj]; apply put_inv in Hj as [(-> & E' & _)|(_ & Hj)]; auto.
  - intros j v p st Hj Hh. apply put_inv in Hj as [(-> & -> & _)|(_ & Hj)]; [eapply Y|eapply g_hold0]; eauto.
  - intros p x Hp. apply (pinv_same p x _ (ws s)); [|apply g_prov0; exact Hp]. apply sameN_put with (w := w); auto.
Qed.
Lemma ginv_rtc s n : ginv s -> ginv (set_rtc s n).
Proof. intros []. constructor; auto. Qed.
Lemma ginv_tct s n : ginv s -> ginv (set_tct s n).
Proof. intros []. constructor; auto. Qed.
Lemma ginv_created s : ginv s -> ginv (set_ap (set_created s true) (awake (ap s))).
Proof. intros []. constructor; auto; cbn; destruct (ap s); auto. Qed.

(** A worker changes one provider and its own program counter. *)
Lemma ginv_prov s i w w' p x x' : ginv s -> nth_error (ws s) i = Some w -> nth_error (prs s) p = Some x ->
  (forall q f, q <> p -> hw q f w = hw q f w') ->
  w' <> WSleep -> w' <> WExit -> w' <> WDead ->
  (forall q st, hold w' = Some (q, st) -> q < length (prs s)) ->
  pinv p x' (count_occ Nat.eq_dec (tasks s) p) (put (ws s) i w') ->
  ginv (set_w (set_p s p x') i w').
Proof.
  intros G H Hp E S1 S2 S3 Y P. destruct G. constructor; cbn [ap ws runf exitf tasks prs set_w set_p]; auto; rewrite ?put_length; auto.
  - intros j Hj. apply put_inv in Hj as [(-> & E' & _)|(_ & Hj)]; [congruence|apply g_sleep0; exact Hj].
  - intros j [Hj|Hj]; apply put_inv in Hj as [(-> & E' & _)|(_ & Hj)]; auto; congruence.
  - intros j v q st Hj Hh. apply put_inv in Hj as [(-> & -> & _)|(_ & Hj)]; [eapply Y|eapply g_hold0]; eauto.
  - intros q y Hq. apply put_inv in Hq as [(-> & -> & _)|(Nq & Hq)]; [exact P|].
    apply (pinv_same q y _ (ws s)); [|apply g_prov0; exact Hq]. apply sameN_put with (w := w); auto.
Qed.

Definition normal (x : prov) (p q : nat) (l : list wpc) : Prop :=
  given x + q + N p fgive l = tcount x /\ compl x + N p fin_ l = given x /\ gsize (plog x) = tcount x /\
  forall t, begins t (plog x) + N p (fb t) l = b2n (t <? given x) /\ ends t (plog x) + N p (fe t) l = b2n (t <? given x).
Lemma held_active p x q l : pinv p x q l -> 0 < N p fgive l + N p fin_ l + N p (flast (tcount x)) l ->
  running x = true /\ 0 < tcount x /\ N p (flast (tcount x)) l = b2n (compl x =? tcount x) /\
  (pc x = CIdle \/ pc x = CWait \/ pc x = CSleep) /\ normal x p q l.
Proof.
  intros [A B C D] H. destruct (running x).
  - destruct D as (D1 & D2 & D3). repeat split; auto; destruct (pc x); try contradiction; auto; try apply D3.
    all: exfalso; destruct D3 as (-> & -> & D4 & D5 & D6 & D7 & D8); rewrite D2, D7, D4, D5 in H;
      destruct (Nat.eqb_spec 0 (tcount x)); cbn in H; lia.
  - destruct D as (D1 & D2 & D3 & D4 & _). lia.
Qed.
Lemma normal_active p x q l (r : bool) : r = true -> 0 < tcount x -> N p (flast (tcount x)) l = b2n (compl x =? tcount x) ->
  (pc x = CIdle \/ pc x = CWait \/ pc x = CSleep) -> normal x p q l -> if r then active p x q l else quiet p x q l.
Proof. intros -> T F P M. split; [exact T|]. split; [exact F|]. destruct P as [-> | [-> | ->]]; exact M. Qed.

Lemma hw_same p f w st : hold w = Some (p, st) -> hw p f w = b2n (f st).
Proof. intros H. unfold hw. rewrite H, Nat.eqb_refl. reflexivity. Qed.
Lemma hw_none p f w : hold w = None -> hw p f w = 0.
Proof. intros H. unfold hw. rewrite H. reflexivity. Qed.
Lemma hw_diff q p f w st : hold w = Some (p, st) -> q <> p -> hw q f w = 0.
Proof. intros H E. unfold hw. rewrite H. destruct (Nat.eqb_spec p q); congruence. Qed.

(** The counts after worker i moved from w to w'. *)
Ltac hwu X := unfold hw in X; cbn [hold] in X; rewrite ?Nat.eqb_refl in X; cbn [fgive fin_ flast fover fexc fb fe b2n] in X; rewrite ?Nat.eqb_refl in X; cbn [b2n] in X.
Ltac cnt p H w' f := let E := fresh "E" in pose proof (N_put p f _ _ _ w' H) as E;
  unfold hw in E; cbn [hold] in E; rewrite ?Nat.eqb_refl in E; cbn [fgive fin_ flast fover fexc fb fe b2n] in E.
Ltac bsolve := repeat match goal with
  | |- context [?a =? ?b] => destruct (Nat.eqb_spec a b)
  | |- context [?a <? ?b] => destruct (Nat.ltb_spec a b)
  | H : context [?a =? ?b] |- _ => destruct (Nat.eqb_spec a b)
  | H : context [?a <? ?b] |- _ => destruct (Nat.ltb_spec a b)
  end; cbn [b2n orb andb negb] in *; try lia.

Definition sok (r : sres) : Prop := match r with Undef => False | Blocked => True | Next s => ginv s end.

Ltac ghold := let q := fresh in let st := fresh in let X := fresh in intros q st X; cbn in X; inversion X; subst; assumption.
Ltac gdiff := intros; unfold hw; cbn [hold];
  repeat match goal with |- context [?a =? ?b] => destruct (Nat.eqb_spec a b); [congruence|] end; reflexivity.

Lemma wstep_ok s i threw : ginv s -> sok (wstep s i threw).
Proof.
  intros G. unfold wstep. destruct (nth_error (ws s) i) as [w|] eqn:H; [|exact I].
  assert (Hp : forall p st, hold w = Some (p, st) -> exists x, nth_error (prs s) p = Some x).
  { intros p st E. apply prov_get. apply (g_hold s G i w p st H E). }
  destruct w as [| | | | | | |p|p t|p t|p t|p|p|p c|p| |]; try exact I.
  - (* WStart *) destruct (S (rtc s) =? tct s); cbn [sok];
      (apply ginv_move with (w := WStart); [apply ginv_rtc; exact G|exact H|reflexivity|discriminate|intros [|]; discriminate|discriminate]).
  - (* WCreated *) cbn [sok]. apply ginv_move with (w := WCreated); [apply ginv_created; exact G|exact H|reflexivity|discriminate|intros [|]; discriminate|discriminate].
  - (* WHead *) destruct (exit_get s i _ G H) as (b & E). unfold with_b. rewrite E. cbn [sok].
    apply ginv_move with (w := WHead); auto; destruct b; auto; try discriminate; intros [|]; discriminate.
  - (* WWait *) destruct (run_get s i _ G H) as (b & E). unfold with_b. rewrite E. cbn [sok].
    apply ginv_move with (w := WWait); auto; destruct b; auto; try discriminate; intros [|]; discriminate.
  - (* WCheck *) destruct (exit_get s i _ G H) as (b & E). unfold with_b. rewrite E. cbn [sok].
    apply ginv_move with (w := WCheck); auto; destruct b; auto; try discriminate; intros [|]; discriminate.
  - (* WPop *) destruct (tasks s) as [|p q] eqn:Et.
    + destruct (run_get s i _ G H) as (b & E). unfold with_b. rewrite E. cbn [sok].
      assert (G' : ginv (set_w s i WHead)).
      { apply ginv_move with (w := WPop); auto; try discriminate. intros [|]; discriminate. }
      destruct G'. cbn [ap ws runf exitf tasks prs set_w] in *.
      constructor; cbn [ap ws runf exitf tasks prs set_w set_run]; rewrite ?put_length in *; auto.
      * intros j Hj. destruct (Nat.eq_dec j i) as [->|Nj]; [rewrite (put_same _ _ _ _ E); reflexivity|].
        rewrite put_other by exact Nj. auto.
    + cbn [sok]. assert (Pq : p < length (prs s)) by (apply (g_idx s G); rewrite Et; left; reflexivity).
      destruct (prov_get s p Pq) as (x & Hx). destruct G.
      constructor; cbn [ap ws runf exitf tasks prs set_w set_tasks]; rewrite ?put_length; auto.
      * intros j Hj. apply put_inv in Hj as [(_ & E & _)|(_ & Hj)]; [discriminate|auto].
      * intros _. apply g_run0. rewrite Et. discriminate.
      * intros j [Hj|Hj]; apply put_inv in Hj as [(_ & E & _)|(_ & Hj)]; auto; discriminate.
      * intros r Hr. apply g_idx0. rewrite Et. right. exact Hr.
      * intros j v r st Hj Hh. apply put_inv in Hj as [(_ & -> & _)|(_ & Hj)]; [cbn in Hh; congruence|eauto].
      * intros r y Hy. pose proof (g_prov0 r y Hy) as P. rewrite Et in P. cbn [count_occ] in P.
        destruct (Nat.eq_dec p r) as [Er|Nr].
        -- subst r. assert (y = x) by congruence. subst y.
           destruct P as [A B C D].
           cnt p H (WGive p) (fover (tcount x)). cnt p H (WGive p) fexc. cnt p H (WGive p) fgive. cnt p H (WGive p) fin_.
           cnt p H (WGive p) (flast (tcount x)).
           constructor; auto; [lia|rewrite B; f_equal; bsolve|]. destruct (running x).
           ++ destruct D as (D1 & D2 & D3). split; [exact D1|]. split; [lia|]. destruct (pc x); try contradiction; try lia.
              all: destruct D3 as (D3 & D4 & D5 & D6); repeat split; try lia;
                [cnt p H (WGive p) (fb t)|cnt p H (WGive p) (fe t)]; specialize (D6 t); lia.
           ++ destruct D as (D1 & _). lia.
        -- apply (pinv_same r y _ (ws s)); [|exact P]. apply sameN_put with (w := WPop); auto.
           intros f. rewrite (hw_diff r p f (WGive p) SGive eq_refl) by congruence. reflexivity.
  - (* WGive *) destruct (Hp p SGive eq_refl) as (x & Hx). unfold with_p. rewrite Hx. cbn [sok].
    assert (Pl : p < length (prs s)) by (apply nth_error_Some; congruence).
    pose proof (g_prov s G p x Hx) as P. pose proof (N_ge p fgive _ _ _ H) as Hge. hwu Hge.
    destruct (held_active _ _ _ _ P) as (R & T & F & Pc & M); [lia|]. destruct M as (M1 & M2 & M3 & M4).
    apply ginv_prov with (w := WGive p) (x := x); auto; try discriminate; try ghold; [gdiff|].
    destruct P as [A B C _].
    cnt p H (WLt p (given x)) (fover (tcount x)). cnt p H (WLt p (given x)) fexc. cnt p H (WLt p (given x)) fgive. cnt p H (WLt p (given x)) fin_. cnt p H (WLt p (given x)) (flast (tcount x)).
    constructor; cbn [tcount given compl running exc pc plog]; auto; [lia|rewrite B; f_equal; bsolve|].
    apply normal_active; auto; cbn [tcount given compl running exc pc plog]; [lia|].
    repeat split; cbn [tcount given compl running exc pc plog]; try lia; specialize (M4 t).
    + cnt p H (WLt p (given x)) (fb t). bsolve.
    + cnt p H (WLt p (given x)) (fe t). bsolve.
  - (* WLt *) destruct (Hp p (SLt t) eq_refl) as (x & Hx). unfold with_p. rewrite Hx. cbn [sok].
    assert (Pl : p < length (prs s)) by (apply nth_error_Some; congruence).
    pose proof (g_prov s G p x Hx) as P. pose proof (N_ge p fin_ _ _ _ H) as Hge. hwu Hge.
    destruct (held_active _ _ _ _ P) as (R & T & F & Pc & M); [lia|]. destruct M as (M1 & M2 & M3 & M4).
    pose proof (N_ge p (fb t) _ _ _ H) as Ht. hwu Ht.
    assert (Hlt : t < tcount x). { destruct (M4 t) as (M5 & _). destruct (Nat.ltb_spec t (given x)); cbn [b2n] in M5; lia. }
    destruct (Nat.ltb_spec t (tcount x)); [|lia].
    replace (set_w s i (WBegin p t)) with (set_w (set_p s p x) i (WBegin p t)).
    2:{ unfold set_w, set_p. cbn. f_equal. clear - Hx. revert p Hx. induction (prs s) as [|a l IH]; intros [|p] Hx; cbn in *; try discriminate; [congruence|f_equal; auto]. }
    apply ginv_prov with (w := WLt p t) (x := x); auto; try discriminate; try ghold; [gdiff|].
    destruct P as [A B C _].
    cnt p H (WBegin p t) (fover (tcount x)). cnt p H (WBegin p t) fexc. cnt p H (WBegin p t) fgive. cnt p H (WBegin p t) fin_. cnt p H (WBegin p t) (flast (tcount x)).
    constructor; auto; [lia|rewrite B; f_equal; bsolve|]. apply normal_active; auto; [lia|].
    repeat split; try lia; specialize (M4 t0).
    + cnt p H (WBegin p t) (fb t0). lia.
    + cnt p H (WBegin p t) (fe t0). lia.
  - (* WBegin *) destruct (Hp p (SBegin t) eq_refl) as (x & Hx). unfold with_p. rewrite Hx. cbn [sok].
    assert (Pl : p < length (prs s)) by (apply nth_error_Some; congruence).
    pose proof (g_prov s G p x Hx) as P. pose proof (N_ge p fin_ _ _ _ H) as Hge. hwu Hge.
    destruct (held_active _ _ _ _ P) as (R & T & F & Pc & M); [lia|]. destruct M as (M1 & M2 & M3 & M4).
    apply ginv_prov with (w := WBegin p t) (x := x); auto; try discriminate; try ghold; [gdiff|].
    destruct P as [A B C _].
    cnt p H (WEnd p t) (fover (tcount x)). cnt p H (WEnd p t) fexc. cnt p H (WEnd p t) fgive. cnt p H (WEnd p t) fin_. cnt p H (WEnd p t) (flast (tcount x)).
    constructor; cbn [tcount given compl running exc pc plog waits_ok threw_since]; auto; [lia|rewrite B; f_equal; bsolve|].
    apply normal_active; auto; cbn [tcount given compl running exc pc plog]; [lia|].
    repeat split; cbn [tcount given compl running exc pc plog begins ends gsize]; try lia; specialize (M4 t0).
    + cnt p H (WEnd p t) (fb t0). lia.
    + cnt p H (WEnd p t) (fe t0). lia.
  - (* WEnd *) destruct (Hp p (SEnd t) eq_refl) as (x & Hx). unfold with_p. rewrite Hx. cbn [sok].
    assert (Pl : p < length (prs s)) by (apply nth_error_Some; congruence).
    pose proof (g_prov s G p x Hx) as P. pose proof (N_ge p fin_ _ _ _ H) as Hge. hwu Hge.
    destruct (held_active _ _ _ _ P) as (R & T & F & Pc & M); [lia|]. destruct M as (M1 & M2 & M3 & M4).
    apply ginv_prov with (w := WEnd p t) (x := x); auto; try (destruct threw; discriminate); try (destruct threw; ghold); [destruct threw; gdiff|].
    destruct P as [A B C _]. destruct threw.
    +
      cnt p H (WExc p) (fover (tcount x)). cnt p H (WExc p) fexc. cnt p H (WExc p) fgive. cnt p H (WExc p) fin_. cnt p H (WExc p) (flast (tcount x)).
      constructor; cbn [tcount given compl running exc pc plog waits_ok threw_since]; auto; [lia|rewrite B; destruct (exc x); cbn [orb]; bsolve|].
      apply normal_active; auto; cbn [tcount given compl running exc pc plog]; [lia|].
      repeat split; cbn [tcount given compl running exc pc plog begins ends gsize]; try lia; specialize (M4 t0).
      * cnt p H (WExc p) (fb t0). lia.
      * cnt p H (WExc p) (fe t0). lia.
    +
      cnt p H (WDone p) (fover (tcount x)). cnt p H (WDone p) fexc. cnt p H (WDone p) fgive. cnt p H (WDone p) fin_. cnt p H (WDone p) (flast (tcount x)).
      constructor; cbn [tcount given compl running exc pc plog waits_ok threw_since]; auto; [lia|rewrite B; cbn [orb]; f_equal; bsolve|].
      apply normal_active; auto; cbn [tcount given compl running exc pc plog]; [lia|].
      repeat split; cbn [tcount given compl running exc pc plog begins ends gsize]; try lia; specialize (M4 t0).
      * cnt p H (WDone p) (fb t0). lia.
      * cnt p H (WDone p) (fe t0). lia.
  - (* WExc *) destruct (Hp p SExc eq_refl) as (x & Hx). unfold with_p. rewrite Hx. cbn [sok].
    assert (Pl : p < length (prs s)) by (apply nth_error_Some; congruence).
    pose proof (g_prov s G p x Hx) as P. pose proof (N_ge p fin_ _ _ _ H) as Hge. hwu Hge.
    destruct (held_active _ _ _ _ P) as (R & T & F & Pc & M); [lia|]. destruct M as (M1 & M2 & M3 & M4).
    apply ginv_prov with (w := WExc p) (x := x); auto; try discriminate; try ghold; [gdiff|].
    destruct P as [A B C _].
    cnt p H (WDone p) (fover (tcount x)). cnt p H (WDone p) fexc. cnt p H (WDone p) fgive. cnt p H (WDone p) fin_. cnt p H (WDone p) (flast (tcount x)).
    pose proof (N_ge p fexc _ _ _ H) as He. hwu He.
    constructor; cbn [tcount given compl running exc pc plog waits_ok threw_since]; auto;
      [lia|rewrite B; destruct (Nat.ltb_spec 0 (N p fexc (ws s))); [apply orb_true_r|lia]|].
    apply normal_active; auto; cbn [tcount given compl running exc pc plog]; [lia|].
    repeat split; cbn [tcount given compl running exc pc plog begins ends gsize]; try lia; specialize (M4 t).
    + cnt p H (WDone p) (fb t). lia.
    + cnt p H (WDone p) (fe t). lia.
  - (* WDone *) destruct (Hp p SDone eq_refl) as (x & Hx). unfold with_p. rewrite Hx. cbn [sok].
    assert (Pl : p < length (prs s)) by (apply nth_error_Some; congruence).
    pose proof (g_prov s G p x Hx) as P. pose proof (N_ge p fin_ _ _ _ H) as Hge. hwu Hge.
    destruct (held_active _ _ _ _ P) as (R & T & F & Pc & M); [lia|]. destruct M as (M1 & M2 & M3 & M4).
    apply ginv_prov with (w := WDone p) (x := x); auto; try discriminate; try ghold; [gdiff|].
    destruct P as [A B C _].
    cnt p H (WCmp p (S (compl x))) (fover (tcount x)). cnt p H (WCmp p (S (compl x))) fexc. cnt p H (WCmp p (S (compl x))) fgive. cnt p H (WCmp p (S (compl x))) fin_. cnt p H (WCmp p (S (compl x))) (flast (tcount x)).
    constructor; cbn [tcount given compl running exc pc plog waits_ok threw_since]; auto; [bsolve|rewrite B; f_equal; bsolve|].
    apply normal_active; auto; cbn [tcount given compl running exc pc plog]; [rewrite F in *; bsolve|].
    repeat split; cbn [tcount given compl running exc pc plog begins ends gsize]; try lia; specialize (M4 t).
    + cnt p H (WCmp p (S (compl x))) (fb t). lia.
    + cnt p H (WCmp p (S (compl x))) (fe t). lia.
  - (* WCmp *) destruct (Hp p (SCmp c) eq_refl) as (x & Hx). unfold with_p. rewrite Hx. cbn [sok].
    assert (Pl : p < length (prs s)) by (apply nth_error_Some; congruence).
    pose proof (g_prov s G p x Hx) as P.
    replace (set_w s i (if c =? tcount x then WNotify p else WHead)) with (set_w (set_p s p x) i (if c =? tcount x then WNotify p else WHead)).
    2:{ unfold set_w, set_p. cbn. f_equal. clear - Hx. revert p Hx. induction (prs s) as [|a l IH]; intros [|p] Hx; cbn in *; try discriminate; [congruence|f_equal; auto]. }
    apply ginv_prov with (w := WCmp p c) (x := x); auto; try (destruct (c =? tcount x); discriminate);
      try (destruct (c =? tcount x); ghold); [destruct (c =? tcount x); gdiff|].
    destruct P as [A B C D].
    assert (S1 : forall f, (forall st, f st = true -> match st with SCmp _ | SNotify => False | _ => True end) ->
        N p f (put (ws s) i (if c =? tcount x then WNotify p else WHead)) = N p f (ws s)).
    { intros f Hf. pose proof (N_put p f _ _ _ (if c =? tcount x then WNotify p else WHead) H) as E.
      rewrite (hw_same p f (WCmp p c) (SCmp c) eq_refl) in E. destruct (f (SCmp c)) eqn:Fc; [destruct (Hf _ Fc)|].
      destruct (c =? tcount x).
      - rewrite (hw_same p f (WNotify p) SNotify eq_refl) in E. destruct (f SNotify) eqn:Fn; [destruct (Hf _ Fn)|]. cbn in E. lia.
      - rewrite (hw_none p f WHead eq_refl) in E. cbn in E. lia. }
    assert (S2 : N p (flast (tcount x)) (put (ws s) i (if c =? tcount x then WNotify p else WHead)) = N p (flast (tcount x)) (ws s)).
    { pose proof (N_put p (flast (tcount x)) _ _ _ (if c =? tcount x then WNotify p else WHead) H) as E.
      rewrite (hw_same p _ (WCmp p c) (SCmp c) eq_refl) in E. cbn [flast] in E. destruct (c =? tcount x).
      - rewrite (hw_same p _ (WNotify p) SNotify eq_refl) in E. cbn in E. lia.
      - hwu E. lia. }
    assert (S3 : N p (fover (tcount x)) (put (ws s) i (if c =? tcount x then WNotify p else WHead)) = 0).
    { pose proof (N_put p (fover (tcount x)) _ _ _ (if c =? tcount x then WNotify p else WHead) H) as E.
      assert (Z : hw p (fover (tcount x)) (if c =? tcount x then WNotify p else WHead) = 0).
      { destruct (c =? tcount x); unfold hw; cbn [hold]; rewrite ?Nat.eqb_refl; reflexivity. }
      lia. }
    assert (Sg := S1 fgive ltac:(intros [] Hs; cbn in *; try discriminate; exact I)).
    assert (Si := S1 fin_ ltac:(intros [] Hs; cbn in *; try discriminate; exact I)).
    assert (Sx := S1 fexc ltac:(intros [] Hs; cbn in *; try discriminate; exact I)).
    assert (Sb := fun t => S1 (fb t) ltac:(intros [] Hs; cbn in *; try discriminate; exact I)).
    assert (Se := fun t => S1 (fe t) ltac:(intros [] Hs; cbn in *; try discriminate; exact I)).
    constructor; auto; [rewrite Sx; exact B|]. unfold active, quiet in *. rewrite S2, Sg, Si. destruct (running x); [|exact D].
    destruct (pc x); try exact D; (destruct D as (D1 & D2 & D3 & D4 & D5 & D6); split; [exact D1|]; split; [exact D2|]; split; [exact D3|]; split; [exact D4|];
      split; [exact D5|]; intros t; rewrite Sb, Se; apply D6).
  - (* WNotify *) destruct (Hp p SNotify eq_refl) as (x & Hx). unfold with_p. rewrite Hx. cbn [sok].
    assert (Pl : p < length (prs s)) by (apply nth_error_Some; congruence).
    pose proof (g_prov s G p x Hx) as P. pose proof (N_ge p (flast (tcount x)) _ _ _ H) as Hge. hwu Hge.
    destruct (held_active _ _ _ _ P) as (R & T & F & Pc & M); [lia|]. destruct M as (M1 & M2 & M3 & M4).
    assert (Hc : compl x = tcount x) by (rewrite F in Hge; destruct (Nat.eqb_spec (compl x) (tcount x)); [assumption|cbn in Hge; lia]).
    rewrite Hc, Nat.eqb_refl in F. cbn [b2n] in F.
    apply ginv_prov with (w := WNotify p) (x := x); auto; try discriminate; [gdiff|].
    destruct P as [A B C _].
    cnt p H (WHead) (fover (tcount x)). cnt p H (WHead) fexc. cnt p H (WHead) fgive. cnt p H (WHead) fin_. cnt p H (WHead) (flast (tcount x)).
    constructor; cbn [tcount given compl running exc pc plog waits_ok threw_since]; auto; [lia|rewrite B; f_equal; bsolve|].
    unfold quiet. cbn [tcount given compl running exc pc plog]. repeat split; try lia.
    + destruct (M4 t) as (M5 & _). assert (N p (fb t) (ws s) <= N p fin_ (ws s)) by (apply N_le; intros []; cbn; auto; discriminate).
      rewrite M3. replace (given x) with (tcount x) in M5 by lia. lia.
    + destruct (M4 t) as (_ & M5). assert (N p (fe t) (ws s) <= N p fin_ (ws s)) by (apply N_le; intros []; cbn; auto; discriminate).
      rewrite M3. replace (given x) with (tcount x) in M5 by lia. lia.
    + destruct Pc as [-> | [-> | ->]]; exact I.
  - (* WExit *) cbn [sok]. apply ginv_move with (w := WExit); [apply ginv_rtc; exact G|exact H|reflexivity|discriminate| |discriminate].
    intros _. cbn. apply (g_dead s G). left. exact H.
Qed.

(** ** Client steps *)
Lemma ginv_client s p x x' : ginv s -> nth_error (prs s) p = Some x ->
  pinv p x' (count_occ Nat.eq_dec (tasks s) p) (ws s) -> ginv (set_p s p x').
Proof.
  intros G Hp P. destruct G. constructor; cbn [ap ws runf exitf tasks prs set_w set_p]; auto; rewrite ?put_length; auto.
  intros q y Hq. apply put_inv in Hq as [(-> & -> & _)|(Nq & Hq)]; auto.
Qed.
Lemma count_repeat p n : count_occ Nat.eq_dec (repeat p n) p = n.
Proof. induction n as [|n IH]; cbn; [reflexivity|]. destruct (Nat.eq_dec p p); congruence. Qed.
Lemma count_repeat_other p q n : p <> q -> count_occ Nat.eq_dec (repeat p n) q = 0.
Proof. intros H. induction n as [|n IH]; cbn; [reflexivity|]. destruct (Nat.eq_dec p q); congruence. Qed.
Lemma filter_notin p l : ~ In p l -> filter (fun q => negb (q =? p)) l = l.
Proof.
  induction l as [|a l IH]; cbn; intros H; [reflexivity|]. destruct (Nat.eqb_spec a p); [tauto|]. cbn. f_equal. apply IH. tauto.
Qed.
Lemma nth_map {A B} (f : A -> B) l i : nth_error (map f l) i = option_map f (nth_error l i).
Proof. apply nth_error_map. Qed.
Lemma wake_inv l i w : nth_error (map wake l) i = Some w -> w <> WSleep /\ (w = WWait \/ nth_error l i = Some w).
Proof.
  rewrite nth_map. destruct (nth_error l i) as [v|]; cbn; [|discriminate]. intros E. injection E as <-.
  destruct v; cbn; split; auto; discriminate.
Qed.

Lemma cstep_ok s p cmd : ginv s -> ok_label s (LC p cmd) -> sok (cstep s p cmd).
Proof.
  intros G O. unfold cstep. destruct (nth_error (prs s) p) as [x|] eqn:Hx; [|exact I].
  pose proof (g_prov s G p x Hx) as P. destruct P as [A B C D].
  assert (Pl : p < length (prs s)) by (apply nth_error_Some; congruence).
  destruct (pc x) eqn:Epc.
  - (* CIdle *) destruct cmd as [n| |].
    + destruct (running x) eqn:R; cbn [negb andb]; [exact G|]. destruct (Nat.ltb_spec 0 n); [|exact G].
      cbn [sok]. apply ginv_client with (x := x); auto. constructor; auto. cbn [running].
      destruct D as (D1 & D2 & D3 & D4 & D5 & _). unfold quiet. cbn [tcount plog pc]. cbn in O. specialize (O x Hx Epc).
      repeat split; auto; try apply D5.
    + cbn [sok]. apply ginv_client with (x := x); auto. constructor; auto. cbn [running].
      destruct (running x); [unfold active in *|unfold quiet in *]; rewrite Epc in D; exact D.
    + cbn [sok]. cbn in O. rewrite filter_notin by exact O.
      assert (G' : ginv (set_p s p (mkP (tcount x) (given x) (compl x) (running x) (exc x) CWait (plog x)))).
      { apply ginv_client with (x := x); auto. constructor; auto. cbn [running].
        destruct (running x); [unfold active in *|unfold quiet in *]; rewrite Epc in D; exact D. }
      exact G'.
  - (* CCount *) cbn [sok]. destruct (running x) eqn:R; [destruct D as (_ & _ & D); rewrite Epc in D; contradiction|].
    destruct D as (D1 & D2 & D3 & D4 & D5 & D6). rewrite Epc in D6.
    apply ginv_client with (x := x); auto. constructor; auto; cbn [running tcount].
    + assert (N p (fover n) (ws s) <= N p (fover (tcount x)) (ws s)); [|lia]. apply N_le. intros [] E; cbn [fover] in *; try discriminate.
      apply orb_true_iff in E as [E|E]; apply orb_true_iff; [left; apply Nat.ltb_lt in E; apply Nat.ltb_lt; lia|right; exact E].
    + unfold quiet; cbn [tcount plog pc]. repeat split; auto; try apply D5; try lia.
      assert (N p (flast n) (ws s) <= N p (fover (tcount x)) (ws s) + N p (flast (tcount x)) (ws s)); [|lia].
      apply N_or. intros [] E; cbn [fover flast] in *; try discriminate; auto. apply Nat.eqb_eq in E. subst c.
      destruct (Nat.eq_dec n (tcount x)) as [->|Nn]; [right; apply Nat.eqb_refl|left]. apply orb_true_iff. left. apply Nat.ltb_lt. lia.
  - (* CGiven *) cbn [sok]. destruct (running x) eqn:R; [destruct D as (_ & _ & D); rewrite Epc in D; contradiction|].
    destruct D as (D1 & D2 & D3 & D4 & D5 & D6). rewrite Epc in D6.
    apply ginv_client with (x := x); auto. constructor; auto; cbn [running tcount].
    unfold quiet; cbn [tcount plog pc given]. repeat split; auto; try apply D5; try lia.
  - (* CCompl *) cbn [sok]. destruct (running x) eqn:R; [destruct D as (_ & _ & D); rewrite Epc in D; contradiction|].
    destruct D as (D1 & D2 & D3 & D4 & D5 & D6). rewrite Epc in D6.
    apply ginv_client with (x := x); auto. constructor; auto; cbn [running tcount].
    unfold quiet; cbn [tcount plog pc given compl]. repeat split; auto; try apply D5; try lia.
  - (* CAdd *) destruct (running x) eqn:R; [destruct D as (_ & _ & D); rewrite Epc in D; contradiction|].
    destruct D as (D1 & D2 & D3 & D4 & D5 & D6). rewrite Epc in D6.
    destruct (length (ws s) =? 0); cbn [sok]; apply ginv_client with (x := x); auto; constructor; auto; cbn [running tcount];
    unfold quiet; cbn [tcount plog pc given compl]; repeat split; auto; try apply D5; try lia.
  - (* CRunning *) cbn [sok]. destruct (running x) eqn:R; [destruct D as (_ & _ & D); rewrite Epc in D; contradiction|].
    destruct D as (D1 & D2 & D3 & D4 & D5 & D6). rewrite Epc in D6.
    apply ginv_client with (x := x); auto. constructor; auto; cbn [running tcount].
    unfold active; cbn [tcount plog pc given compl]. split; [lia|]. split; [rewrite D4; bsolve|]. repeat split; auto; try lia; apply D5.
  - (* CInsert *) cbn [sok]. destruct (running x) eqn:R; [|destruct D as (_ & _ & _ & _ & _ & D); rewrite Epc in D; contradiction].
    destruct D as (D1 & D2 & D3). rewrite Epc in D3. destruct D3 as (-> & D4 & D5 & D6 & D7 & D8 & D9).
    destruct G. constructor; cbn [ap ws runf exitf tasks prs]; rewrite ?map_length, ?put_length; auto.
    + intros i Hi. apply wake_inv in Hi as [Hi _]. contradiction.
    + intros _ i b Hb. rewrite nth_map in Hb. destruct (nth_error (runf s) i); cbn in Hb; congruence.
    + intros i [Hi|Hi]; apply wake_inv in Hi as (_ & [Hi|Hi]); try discriminate; auto.
    + intros q Hq. apply in_app_iff in Hq as [Hq|Hq]; auto. apply repeat_spec in Hq. congruence.
    + intros i w q st Hi Hh. apply wake_inv in Hi as (_ & [-> |Hi]); [discriminate|eauto].
    + intros q y Hq. rewrite count_occ_app. apply put_inv in Hq as [(-> & -> & _)|(Nq & Hq)].
      * rewrite count_repeat. constructor; cbn [tcount given compl running exc pc plog waits_ok threw_since]; rewrite ?N_wake; auto.
        unfold active. cbn [tcount given compl running exc pc plog gsize]. rewrite !N_wake. repeat split; auto; try lia; rewrite N_wake; cbn [begins ends].
        -- assert (N p (fb t) (ws s) <= N p fin_ (ws s)) by (apply N_le; intros []; cbn; auto; discriminate). bsolve.
        -- assert (N p (fe t) (ws s) <= N p fin_ (ws s)) by (apply N_le; intros []; cbn; auto; discriminate). bsolve.
      * rewrite count_repeat_other by congruence. rewrite Nat.add_0_r. apply (pinv_same q y _ (ws s)); auto. apply sameN_wake.
  - (* CWait *) destruct (running x) eqn:R; cbn [sok]; apply ginv_client with (x := x); auto.
    + constructor; cbn [running tcount plog exc]; auto. unfold active in *. rewrite Epc in D. exact D.
    + destruct D as (D1 & D2 & D3 & D4 & D5 & D6).
      assert (Hz : N p fexc (ws s) = 0).
      { assert (N p fexc (ws s) <= N p fin_ (ws s)) by (apply N_le; intros []; cbn; auto; discriminate). lia. }
      constructor; cbn [running tcount plog exc threw_since waits_ok]; auto.
      * rewrite Hz. reflexivity.
      * split; [|exact C]. split; [exact D5|]. rewrite B, Hz. cbn. rewrite orb_false_r. reflexivity.
      * unfold quiet. cbn [tcount plog pc]. repeat split; auto; cbn [begins ends gsize]; apply D5.
  - exact I.
Qed.

(** ** Steps of the managing thread *)
Lemma nth_removelast {A} : forall (l : list A) i x, nth_error (removelast l) i = Some x -> nth_error l i = Some x.
Proof.
  induction l as [|a l IH]; intros i x H; [destruct i; discriminate|]. cbn [removelast] in H. destruct l as [|b l]; [destruct i; discriminate|].
  destruct i; [exact H|]. cbn in *. apply IH. exact H.
Qed.
Lemma nth_removelast_lt {A} : forall (l : list A) i, S i < length l -> nth_error (removelast l) i = nth_error l i.
Proof.
  induction l as [|a l IH]; intros i H; [cbn in H; lia|]. cbn [removelast]. destruct l as [|b l]; [cbn in H; lia|].
  destruct i; [reflexivity|]. cbn [nth_error]. apply IH. cbn in *. lia.
Qed.
Lemma len_removelast {A} (l : list A) : length (removelast l) = pred (length l).
Proof. induction l as [|a [|b l] IH]; cbn in *; auto. Qed.
Lemma N_removelast p f l : last l WDead = WDead -> N p f (removelast l) = N p f l.
Proof. induction l as [|a [|b l] IH]; intros H; cbn in *; auto. subst a. reflexivity. Qed.
Lemma nth_firstn {A} : forall (l : list A) n i, nth_error (firstn n l) i = if i <? n then nth_error l i else None.
Proof.
  induction l as [|a l IH]; intros [|n] [|i]; auto; [cbn [firstn nth_error]; destruct (_ <? _); reflexivity|]. cbn [firstn nth_error]. rewrite IH. reflexivity.
Qed.
Lemma fill_from_length l n : length (fill_from l n) = length l.
Proof. unfold fill_from. rewrite app_length, map_length, <- app_length, firstn_skipn. reflexivity. Qed.
Lemma nth_fill_from l n i : nth_error (fill_from l n) i = if i <? n then nth_error l i else option_map (fun _ => true) (nth_error l i).
Proof.
  revert n i. induction l as [|a l IH]; intros [|n] [|i]; auto.
  - cbn. destruct (match n with 0 => false | S m' => i <=? m' end); reflexivity.
  - cbn. apply nth_map.
  - change (fill_from (a :: l) (S n)) with (a :: fill_from l n). cbn [nth_error]. rewrite IH. reflexivity.
Qed.
Lemma vresize_grow l n b : length l <= n -> vresize l n b = l ++ repeat b (n - length l).
Proof. intros H. unfold vresize. rewrite firstn_all2 by exact H. reflexivity. Qed.
Lemma nth_app_repeat {A} (l : list A) b n i x : nth_error (l ++ repeat b n) i = Some x -> nth_error l i = Some x \/ x = b.
Proof.
  intros H. destruct (Nat.lt_ge_cases i (length l)).
  - rewrite nth_error_app1 in H by assumption. auto.
  - rewrite nth_error_app2 in H by assumption. apply nth_error_In, repeat_spec in H. auto.
Qed.
Lemma nth_app_l {A} (l l' : list A) i x : nth_error l i = Some x -> nth_error (l ++ l') i = Some x.
Proof. intros H. rewrite nth_error_app1; [exact H|]. apply nth_error_Some. congruence. Qed.

Lemma ginv_ap s a : ginv s ->
  match a with
  | AIdle | AGrowWait | AGrowSleep => length (ws s) = length (runf s)
  | AGrowVec n => length (ws s) = length (runf s) /\ length (ws s) < n
  | AGrowCnt n | AGrowSpawn n => length (runf s) = n /\ length (ws s) <= n
  | AShrinkFlag n => length (ws s) = length (runf s) /\ 0 < n < length (ws s)
  | AShrinkJoin n => length (ws s) = length (runf s) /\ 0 < n <= length (ws s)
  | AShrinkPop n => length (runf s) = S (length (ws s)) /\ 0 < n <= length (ws s)
  | _ => False
  end -> (forall i, nth_error (exitf s) i = Some true -> match a with AShrinkJoin n | AShrinkPop n => n <= i | _ => False end) ->
  ginv (set_ap s a).
Proof. intros [] H1 H2. constructor; auto. Qed.

Lemma astep_ok s cmd : ginv s -> ok_label s (LA cmd) -> sok (astep s cmd).
Proof.
  intros G O. unfold astep. pose proof (g_ap s G) as Ha. pose proof (g_exit s G) as Hx. pose proof (g_len s G) as Hl.
  destruct (ap s) eqn:Ea.
  - destruct cmd as [n| | |]; try contradiction. destruct (Nat.eqb_spec n 0); [exact G|].
    destruct (Nat.ltb_spec (length (ws s)) n); [apply ginv_ap; auto|]. destruct (Nat.ltb_spec n (length (ws s))); [apply ginv_ap; auto; lia|exact G].
  - (* AGrowVec *) destruct Ha as (Ha & Hn). cbn [sok]. destruct G.
    rewrite !vresize_grow by lia.
    constructor; cbn [ap ws runf exitf tasks prs set_run set_exit set_ap]; rewrite ?app_length, ?repeat_length; auto; try lia.
    + intros i Hi. apply nth_app_repeat in Hi as [Hi|Hi]; [apply (Hx i Hi)|discriminate].
    + intros i Hi. apply nth_app_l. auto.
    + intros Ht i b Hi. apply nth_app_repeat in Hi as [Hi|Hi]; [eauto|exact Hi].
    + intros i Hi. apply nth_app_l. auto.
  - (* AGrowCnt *) cbn [sok]. apply (ginv_ap (set_tct s n) (AGrowSpawn n)); auto. apply ginv_tct. exact G.
  - (* AGrowSpawn *) destruct Ha as (Ha & Hn). destruct (Nat.ltb_spec (length (ws s)) n); [|apply ginv_ap; auto; lia].
    cbn [sok]. destruct G. constructor; cbn [ap ws runf exitf tasks prs set_ws]; rewrite ?app_length; auto.
    + rewrite Ea. cbn. lia.
    + intros i Hi. apply (nth_app_repeat _ WStart 1) in Hi as [Hi|Hi]; [auto|discriminate].
    + intros i [Hi|Hi]; apply (nth_app_repeat _ WStart 1) in Hi as [Hi|Hi]; auto; discriminate.
    + intros i w p st Hi Hh. apply (nth_app_repeat _ WStart 1) in Hi as [Hi| ->]; [eauto|discriminate].
    + intros p x Hp. apply (pinv_same p x _ (ws s)); auto. intros f. rewrite N_app. cbn. lia.
  - (* AGrowWait *) destruct (created s); apply ginv_ap; auto.
  - exact I.
  - (* AShrinkFlag *) destruct Ha as (Ha & Hn). cbn [sok]. destruct G.
    constructor; cbn [ap ws runf exitf tasks prs set_run set_exit set_ap set_ws]; rewrite ?fill_from_length, ?map_length; auto; try lia.
    + intros i Hi. rewrite nth_fill_from in Hi. destruct (Nat.ltb_spec i n); [destruct (Hx i Hi)|lia].
    + intros i Hi. apply wake_inv in Hi as [Hi _]. contradiction.
    + intros Ht i b Hi. rewrite nth_fill_from in Hi. destruct (i <? n); [eauto|]. destruct (nth_error (runf s) i); cbn in Hi; congruence.
    + intros i Hi. rewrite nth_fill_from. assert (E : nth_error (exitf s) i = Some true).
      { apply g_dead0. destruct Hi as [Hi|Hi]; apply wake_inv in Hi as (_ & [Hi|Hi]); auto; discriminate. }
      rewrite E. destruct (i <? n); reflexivity.
    + intros i w p st Hi Hh. apply wake_inv in Hi as (_ & [-> |Hi]); [discriminate|eauto].
    + intros p x Hp. apply (pinv_same p x _ (ws s)); auto. apply sameN_wake.
  - (* AShrinkJoin *) destruct Ha as (Ha & Hn). destruct (Nat.ltb_spec n (length (ws s))).
    + destruct (last (ws s) WDead) eqn:El; try exact I. cbn [sok]. destruct G.
      constructor; cbn [ap ws runf exitf tasks prs set_run set_exit set_ap set_ws]; rewrite ?len_removelast; auto; try lia.
      * intros i Hi. apply nth_removelast in Hi. auto.
      * intros i [Hi|Hi]; apply nth_removelast in Hi; auto.
      * intros i w p st Hi Hh. apply nth_removelast in Hi. eauto.
      * intros p x Hp. apply (pinv_same p x _ (ws s)); auto. intros f. apply N_removelast. exact El.
    + apply ginv_ap; auto. intros i Hi. specialize (Hx i Hi). assert (i < length (exitf s)) by (apply nth_error_Some; congruence). lia.
  - (* AShrinkPop *) destruct Ha as (Ha & Hn). cbn [sok]. destruct G.
    assert (Hlt : forall i w, nth_error (ws s) i = Some w -> i < length (ws s)) by (intros i w Hi; apply nth_error_Some; congruence).
    constructor; cbn [ap ws runf exitf tasks prs set_run set_exit set_ap set_ws]; rewrite ?len_removelast; auto; try lia.
    + intros i Hi. apply nth_removelast in Hi. auto.
    + intros i Hi. pose proof (Hlt i _ Hi). rewrite nth_removelast_lt by lia. auto.
    + intros Ht i b Hi. apply nth_removelast in Hi. eauto.
    + intros i Hi. assert (i < length (ws s)) by (destruct Hi as [Hi|Hi]; eauto). rewrite nth_removelast_lt by lia. auto.
  - contradiction.
  - contradiction.
Qed.

Theorem step_ok s l : ginv s -> ok_label s l -> sok (step s l).
Proof.
  intros G O. destruct l as [i threw|i|p cmd|p|cmd|]; cbn [step].
  - apply wstep_ok. exact G.
  - destruct (nth_error (ws s) i) as [[]|] eqn:H; try exact I. cbn [sok]. apply ginv_move with (w := WSleep); auto; try discriminate.
    intros [|]; discriminate.
  - apply cstep_ok; auto.
  - destruct (nth_error (prs s) p) as [x|] eqn:Hx; [|exact I]. destruct (pc x) eqn:Epc; try exact I.
    cbn [sok]. apply ginv_client with (x := x); auto. destruct (g_prov s G p x Hx) as [A B C D]. constructor; auto. cbn [running].
    destruct (running x); [unfold active in *|unfold quiet in *]; rewrite Epc in D; cbn [pc tcount given compl plog]; [exact D|].
    destruct D as (_ & _ & _ & _ & _ & []).
  - apply astep_ok; auto.
  - destruct (ap s) eqn:Ea; try exact I. cbn [sok]. pose proof (g_ap s G) as Ha. pose proof (g_exit s G) as Hx. rewrite Ea in *. apply ginv_ap; auto.
Qed.
