(** Proofs about the blob detection model: the search finds the 8-connected components. *)
From Coq Require Import ZArith List Bool Lia.
From Verif Require Import Base Image Spec BaseProofs ImgFun ImgLemmas ReduceProofs Blob.
Import ListNotations.
Open Scope Z_scope.
Ltac Zify.zify_post_hook ::= Z.div_mod_to_equations.

(** ** Vocabulary of the statement *)

(** Two different pixels that touch, also diagonally. *)
Definition adjacent (p q : Z * Z) : Prop :=
  p <> q /\ Z.abs (fst p - fst q) <= 1 /\ Z.abs (snd p - snd q) <= 1.

(** [q] can be reached from [p] by steps to touching pixels of the set [S]. *)
Inductive linked (S : Z * Z -> Prop) (p : Z * Z) : Z * Z -> Prop :=
  | linked_refl : linked S p p
  | linked_step q r : linked S p q -> adjacent q r -> S r -> linked S p r.

(** Reading order: row by row, from the left. *)
Definition reads_before (p q : Z * Z) : Prop := snd p < snd q \/ snd p = snd q /\ fst p <= fst q.

Lemma adjacent_sym p q : adjacent p q -> adjacent q p.
Proof. intros (H1 & H2 & H3). split; [congruence|]. lia. Qed.

Lemma linked_trans S p q r : linked S p q -> linked S q r -> linked S p r.
Proof. intros H1 H2. induction H2; auto. eapply linked_step; eauto. Qed.

Lemma linked_in (S : Z * Z -> Prop) p q : S p -> linked S p q -> S q.
Proof. intros Hp H. destruct H; auto. Qed.

Lemma linked_sym (S : Z * Z -> Prop) p q : S p -> linked S p q -> linked S q p.
Proof.
  intros Hp H. induction H as [|q r H IH A Hr]; [constructor|].
  apply linked_trans with q; [|exact IH].
  eapply linked_step; [constructor|apply adjacent_sym; exact A|]. exact (linked_in S p q Hp H).
Qed.

Lemma linked_mono (S S' : Z * Z -> Prop) p q : (forall r, S r -> S' r) -> linked S p q -> linked S' p q.
Proof. intros Hs H. induction H; [constructor|]. eapply linked_step; eauto. Qed.

(** A set that contains [p] and is closed under steps contains all that can be reached. *)
Lemma linked_closed (S T : Z * Z -> Prop) p q :
  T p -> (forall a b, T a -> adjacent a b -> S b -> T b) -> linked S p q -> T q.
Proof. intros Hp Hc H. induction H; eauto. Qed.

(** ** A loop with a decreasing measure *)
Lemma loop_inv {E S} (I : S -> Prop) (mu : S -> nat) cond (body : S -> res E S) : forall fuel s,
  I s -> (mu s < fuel)%nat ->
  (forall s, I s -> cond s = true -> exists s', body s = Ok s' /\ I s' /\ (mu s' < mu s)%nat) ->
  exists s', loop fuel cond body s = Ok s' /\ I s' /\ cond s' = false.
Proof.
  induction fuel as [|f IH]; intros s Hi Hm Hs; [lia|].
  cbn [loop]. destruct (cond s) eqn:Ec.
  - destruct (Hs s Hi Ec) as (s1 & -> & Hi1 & Hm1). cbn [bind]. apply IH; auto. lia.
  - exists s. auto.
Qed.

(** ** The eight neighbours *)
Definition deltas : list (Z * Z) := [(-1, -1); (0, -1); (1, -1); (-1, 0); (1, 0); (-1, 1); (0, 1); (1, 1)].
Definition nb (p d : Z * Z) : Z * Z := (fst p + fst d, snd p + snd d).
Definition nbrs (p : Z * Z) : list (Z * Z) := map (nb p) deltas.

Lemma in_nbrs p q : In q (nbrs p) <-> adjacent p q.
Proof.
  destruct p as (a, b), q as (c, d). unfold nbrs, deltas, adjacent, nb. cbn [map fst snd In]. split.
  - intros H. repeat destruct H as [H|H]; try (injection H as <- <-); try contradiction;
      (split; [intros X; injection X; lia|lia]).
  - intros (H1 & H2 & H3).
    assert (c <> a \/ d <> b) by (destruct (Z.eq_dec c a), (Z.eq_dec d b); subst; auto).
    assert (Hc : c = a - 1 \/ c = a \/ c = a + 1) by lia.
    assert (Hd : d = b - 1 \/ d = b \/ d = b + 1) by lia.
    destruct Hc as [-> | [-> | ->]], Hd as [-> | [-> | ->]]; try lia;
      repeat (first [left; f_equal; lia | right]).
Qed.

Lemma nbrs_NoDup p : NoDup (nbrs p).
Proof.
  destruct p as (a, b). unfold nbrs, deltas, nb. cbn [map fst snd].
  repeat constructor; cbn [In]; intros H; repeat destruct H as [H|H]; try contradiction;
    injection H; lia.
Qed.

Definition peq (p q : Z * Z) : {p = q} + {p <> q}.
Proof. decide equality; apply Z.eq_dec. Defined.
Definition mem_in (p : Z * Z) (l : list (Z * Z)) : bool := if in_dec peq p l then true else false.
Lemma mem_in_spec p l : mem_in p l = true <-> In p l.
Proof. unfold mem_in. destruct (in_dec peq p l); split; auto; discriminate. Qed.

Definition fupd (f : Z * Z -> Z) (p : Z * Z) (v : Z) : Z * Z -> Z := fun q => if peq q p then v else f q.

(** ** One look at the neighbours, on the level of pixels *)
Definition vis1 (s : (Z * Z -> Z) * list (Z * Z) * Z) (q : Z * Z) :=
  let '(f, P, c) := s in
  if f q =? 0 then s else if f q =? 1 then (fupd f q 2, P ++ [q], c + 1) else (f, P, c + 1).
Definition tra1 (s : (Z * Z -> Z) * list (Z * Z)) (q : Z * Z) :=
  let '(f, P) := s in if f q =? 3 then (fupd f q 4, P ++ [q]) else s.

Lemma vis_fold l : forall f P c, NoDup l -> exists f',
  fold_left vis1 l (f, P, c) =
    (f', P ++ filter (fun q => f q =? 1) l, c + Z.of_nat (length (filter (fun q => negb (f q =? 0)) l))) /\
  forall q, f' q = if mem_in q l && (f q =? 1) then 2 else f q.
Proof.
  induction l as [|a l IH]; intros f P c Hn.
  - exists f. cbn. rewrite app_nil_r. split; [f_equal; lia|reflexivity].
  - inversion Hn as [|? ? Ha Hl]; subst. cbn [fold_left vis1 filter].
    assert (Hf : forall f', (forall q, q <> a -> f' q = f q) -> forall (g : Z -> bool),
      filter (fun q => g (f' q)) l = filter (fun q => g (f q)) l).
    { intros f' H g. apply filter_ext_in. intros q Hq. rewrite H; [reflexivity|]. intros ->. contradiction. }
    assert (Hm : forall q, q <> a -> mem_in q (a :: l) = mem_in q l).
    { intros q Hq. unfold mem_in. destruct (in_dec peq q (a :: l)) as [i|n], (in_dec peq q l) as [i'|n']; auto.
      - destruct i; [congruence|contradiction].
      - contradict n. right; auto. }
    assert (Hma : mem_in a (a :: l) = true) by (apply mem_in_spec; left; reflexivity).
    assert (Hml : mem_in a l = false).
    { destruct (mem_in a l) eqn:E; [|reflexivity]. apply mem_in_spec in E. contradiction. }
    destruct (Z.eqb_spec (f a) 0) as [E0|E0].
    + destruct (IH f P c Hl) as (f' & -> & Hv). exists f'. rewrite E0. cbn [Z.eqb negb]. split; [reflexivity|].
      intros q. rewrite Hv. destruct (peq q a) as [->|n].
      * rewrite Hma, Hml, E0. reflexivity.
      * rewrite Hm by assumption. reflexivity.
    + destruct (Z.eqb_spec (f a) 1) as [E1|E1].
      * destruct (IH (fupd f a 2) (P ++ [a]) (c + 1) Hl) as (f' & -> & Hv). exists f'.
        assert (Ho : forall q, q <> a -> fupd f a 2 q = f q).
        { intros q Hq. unfold fupd. destruct (peq q a); [contradiction|reflexivity]. }
        rewrite (Hf _ Ho (fun v => v =? 1)), (Hf _ Ho (fun v => negb (v =? 0))).
        cbn [negb length]. rewrite <- app_assoc. cbn [app]. split; [f_equal; lia|].
        intros q. rewrite Hv. destruct (peq q a) as [->|n].
        -- rewrite Hma, Hml, E1. unfold fupd. destruct (peq a a); [reflexivity|contradiction].
        -- rewrite Hm, Ho by assumption. reflexivity.
      * destruct (IH f P (c + 1) Hl) as (f' & -> & Hv). exists f'. cbn [negb length].
        split; [f_equal; lia|].
        intros q. rewrite Hv. destruct (peq q a) as [->|n].
        -- rewrite Hma, Hml. destruct (Z.eqb_spec (f a) 1); [contradiction|reflexivity].
        -- rewrite Hm by assumption. reflexivity.
Qed.

Lemma tra_fold l : forall f P, NoDup l -> exists f',
  fold_left tra1 l (f, P) = (f', P ++ filter (fun q => f q =? 3) l) /\
  forall q, f' q = if mem_in q l && (f q =? 3) then 4 else f q.
Proof.
  induction l as [|a l IH]; intros f P Hn.
  - exists f. cbn. rewrite app_nil_r. auto.
  - inversion Hn as [|? ? Ha Hl]; subst. cbn [fold_left tra1 filter].
    assert (Hf : forall f', (forall q, q <> a -> f' q = f q) -> forall (g : Z -> bool),
      filter (fun q => g (f' q)) l = filter (fun q => g (f q)) l).
    { intros f' H g. apply filter_ext_in. intros q Hq. rewrite H; [reflexivity|]. intros ->. contradiction. }
    assert (Hm : forall q, q <> a -> mem_in q (a :: l) = mem_in q l).
    { intros q Hq. unfold mem_in. destruct (in_dec peq q (a :: l)) as [i|n], (in_dec peq q l) as [i'|n']; auto.
      - destruct i; [congruence|contradiction].
      - contradict n. right; auto. }
    assert (Hma : mem_in a (a :: l) = true) by (apply mem_in_spec; left; reflexivity).
    assert (Hml : mem_in a l = false).
    { destruct (mem_in a l) eqn:E; [|reflexivity]. apply mem_in_spec in E. contradiction. }
    destruct (Z.eqb_spec (f a) 3) as [E1|E1].
    + destruct (IH (fupd f a 4) (P ++ [a]) Hl) as (f' & -> & Hv). exists f'.
      assert (Ho : forall q, q <> a -> fupd f a 4 q = f q).
      { intros q Hq. unfold fupd. destruct (peq q a); [contradiction|reflexivity]. }
      rewrite (Hf _ Ho (fun v => v =? 3)). rewrite <- app_assoc. cbn [app]. split; [reflexivity|].
      intros q. rewrite Hv. destruct (peq q a) as [->|n].
      * rewrite Hma, Hml, E1. unfold fupd. destruct (peq a a); [reflexivity|contradiction].
      * rewrite Hm, Ho by assumption. reflexivity.
    + destruct (IH f P Hl) as (f' & -> & Hv). exists f'. split; [reflexivity|].
      intros q. rewrite Hv. destruct (peq q a) as [->|n].
      * rewrite Hma, Hml. destruct (Z.eqb_spec (f a) 3); [contradiction|reflexivity].
      * rewrite Hm by assumption. reflexivity.
Qed.

(** ** The map as a function of the pixel *)
Section Frame.
Variables w h x y : Z.
Hypothesis Hw : 0 < w.
Hypothesis Hh : 0 < h.
Hypothesis Hsz : (w + 2) * (h + 1) < W32.
Hypothesis Hx : 0 <= x.
Hypothesis Hxw : x + w <= W32.
Hypothesis Hy : 0 <= y.
Hypothesis Hyh : y + h <= W32.

Definition roi (p : Z * Z) : Prop := x <= fst p < x + w /\ y <= snd p < y + h.
Definition frame (p : Z * Z) : Prop := x - 1 <= fst p <= x + w /\ y - 1 <= snd p <= y + h.
Definition off (p : Z * Z) : Z := (snd p + 1 - y) * (w + 2) + (fst p + 1 - x).
Definition rep (mp : mem) (f : Z * Z -> Z) : Prop :=
  len mp 0 = (w + 2) * (h + 2) /\ forall p, frame p -> get mp (map_ptr (off p)) = f p.

Lemma W32_eq : W32 = 4294967296.
Proof. reflexivity. Qed.

Lemma off_range p : frame p -> 0 <= off p < (w + 2) * (h + 2).
Proof. unfold frame, off. intros (H1 & H2). nia. Qed.

Lemma off_inj p q : frame p -> frame q -> off p = off q -> p = q.
Proof.
  destruct p as (a, b), q as (c, d). unfold frame, off. cbn [fst snd]. intros (H1 & H2) (H3 & H4) E.
  assert (b = d).
  { destruct (Z.lt_trichotomy b d) as [|[|]]; auto; exfalso; nia. }
  subst. f_equal. nia.
Qed.

Lemma roi_frame p : roi p -> frame p.
Proof. unfold roi, frame. lia. Qed.

Lemma nb_frame p q : roi p -> In q (nbrs p) -> frame q.
Proof. intros Hp Hq. apply in_nbrs in Hq. destruct Hq as (_ & H1 & H2). unfold roi, frame in *. lia. Qed.

Lemma rep_inb mp f p : rep mp f -> frame p -> inb mp (map_ptr (off p)) = true.
Proof. intros (Hl & _) Hp. apply inb_iff. cbn. rewrite Hl. apply off_range; auto. Qed.

Lemma rep_load {E} mp f p : rep mp f -> frame p -> @load E mp (map_ptr (off p)) = Ok (f p).
Proof.
  intros Hr Hp. rewrite load_ok by (eapply rep_inb; eauto). destruct Hr as (_ & Hv). rewrite Hv; auto.
Qed.

Lemma rep_store {E} mp f p v : rep mp f -> frame p ->
  exists mp', @store E mp (map_ptr (off p)) v = Ok mp' /\ rep mp' (fupd f p v).
Proof.
  intros Hr Hp. rewrite store_ok by (eapply rep_inb; eauto). eexists. split; [reflexivity|].
  destruct Hr as (Hl & Hv). split.
  - rewrite len_upd. exact Hl.
  - intros q Hq. rewrite get_upd. unfold fupd. destruct (peq q p) as [->|n].
    + rewrite ptr_eqb_refl. reflexivity.
    + destruct (ptr_eqb_spec (map_ptr (off q)) (map_ptr (off p))) as [e|_]; [|apply Hv; exact Hq].
      injection e as e. apply off_inj in e; auto. contradiction.
Qed.

Lemma rep_ext mp f g : rep mp f -> (forall p, frame p -> f p = g p) -> rep mp g.
Proof. intros (Hl & Hv) H. split; auto. intros p Hp. rewrite Hv, H; auto. Qed.

Lemma point_ptr_off p : roi p -> point_ptr (w + 2) x y p = map_ptr (off p).
Proof.
  intros (H1 & H2). unfold point_ptr, off, map_ptr, padd. cbn [fst snd]. f_equal.
  assert ((snd p + 1 - y) * (w + 2) < W32) by nia.
  rewrite (u32_small (snd p + 1 - y)) by nia.
  rewrite u32_small by nia. rewrite u32_small by nia. reflexivity.
Qed.

Lemma neighbour_nb p dx dy : roi (nb p (dx, dy)) -> neighbour p dx dy = nb p (dx, dy).
Proof.
  unfold roi, nb, neighbour. cbn [fst snd]. intros (H1 & H2). rewrite !u32_small by lia. reflexivity.
Qed.

(** The pointer steps of [ring] lead from neighbour to neighbour. *)
Fixpoint steps (o : Z) (p : Z * Z) (l : list (Z * Z * Z)) : Prop :=
  match l with
  | [] => True
  | (d, dx, dy) :: l' => o + d = off (nb p (dx, dy)) /\ steps (o + d) p l'
  end.
Fixpoint travel (l : list (Z * Z * Z)) : Z :=
  match l with [] => 0 | (d, _, _) :: l' => d + travel l' end.
Definition targets (p : Z * Z) (l : list (Z * Z * Z)) : list (Z * Z) :=
  map (fun t => nb p (snd (fst t), snd t)) l.

Lemma ring_steps p : steps (off p) p (ring w (w + 2)).
Proof. unfold ring, steps, off, nb. cbn [fst snd]. repeat split; lia. Qed.
Lemma ring_travel : travel (ring w (w + 2)) = w + 3.
Proof. unfold ring, travel. lia. Qed.
Lemma ring_targets p : targets p (ring w (w + 2)) = nbrs p.
Proof. reflexivity. Qed.

Lemma visit_abs p l : forall o mp f P c,
  rep mp f -> (forall q, frame q -> f q <> 0 -> roi q) ->
  (forall q, In q (targets p l) -> frame q) -> steps o p l ->
  0 <= c -> c + Z.of_nat (length l) < 256 ->
  exists mp', let '(f', P', c') := fold_left vis1 (targets p l) (f, P, c) in
    visit l p (map_ptr o) mp P c = Ok (map_ptr (o + travel l), mp', P', c') /\ rep mp' f'.
Proof.
  induction l as [|[[d dx] dy] l IH]; intros o mp f P c Hr Hz Hf Hs Hc Hcl.
  - exists mp. cbn. split; [|exact Hr]. rewrite Z.add_0_r. reflexivity.
  - destruct Hs as (Ho & Hs). cbn [targets map fst snd fold_left]. cbn [length] in Hcl.
    set (q := nb p (dx, dy)) in *.
    assert (Hq : frame q) by (apply Hf; left; reflexivity).
    assert (Hf' : forall r, In r (targets p l) -> frame r) by (intros r Hin; apply Hf; right; exact Hin).
    cbn [visit travel].
    replace (o + (d + travel l)) with (off q + travel l) by lia.
    replace (padd (map_ptr o) d) with (map_ptr (off q)) by (unfold padd, map_ptr; cbn [fst snd]; f_equal; lia).
    rewrite Ho in Hs. rewrite (rep_load mp f q) by assumption. cbn [bind].
    unfold EMPTY, NOT_IN_USE, FOUND.
    change (map (fun t => nb p (snd (fst t), snd t)) l) with (targets p l).
    assert (Hv : vis1 (f, P, c) q = if f q =? 0 then (f, P, c) else if f q =? 1 then (fupd f q 2, P ++ [q], c + 1) else (f, P, c + 1)) by reflexivity.
    rewrite Hv. clear Hv.
    assert (Hu : u8 (c + 1) = c + 1) by (unfold u8; rewrite Z.mod_small; lia). rewrite Hu. clear Hu.
    destruct (Z.eqb_spec (f q) 0) as [E0|E0].
    + apply IH; auto; lia.
    + destruct (Z.eqb_spec (f q) 1) as [E1|E1].
      * destruct (@rep_store mem mp f q 2 Hr Hq) as (mp' & Hst & Hr').
        rewrite Hst. cbn [bind]. rewrite neighbour_nb by (apply Hz; auto). fold q.
        apply IH; auto; try lia.
        intros r Hrf Hne. unfold fupd in Hne. destruct (peq r q) as [->|]; apply Hz; auto.
      * apply IH; auto; lia.
Qed.

Lemma trace_abs p l : forall o mp f P,
  rep mp f -> (forall q, frame q -> f q <> 0 -> roi q) ->
  (forall q, In q (targets p l) -> frame q) -> steps o p l ->
  exists mp', let '(f', P') := fold_left tra1 (targets p l) (f, P) in
    trace l p (map_ptr o) mp P = Ok (mp', P') /\ rep mp' f'.
Proof.
  induction l as [|[[d dx] dy] l IH]; intros o mp f P Hr Hz Hf Hs.
  - exists mp. cbn. split; [|exact Hr]. reflexivity.
  - destruct Hs as (Ho & Hs). cbn [targets map fst snd fold_left].
    set (q := nb p (dx, dy)) in *.
    assert (Hq : frame q) by (apply Hf; left; reflexivity).
    assert (Hf' : forall r, In r (targets p l) -> frame r) by (intros r Hin; apply Hf; right; exact Hin).
    cbn [trace].
    replace (padd (map_ptr o) d) with (map_ptr (off q)) by (unfold padd, map_ptr; cbn [fst snd]; f_equal; lia).
    rewrite Ho in Hs. rewrite (rep_load mp f q) by assumption. cbn [bind].
    unfold EDGE, CONTOUR.
    change (map (fun t => nb p (snd (fst t), snd t)) l) with (targets p l).
    assert (Hv : tra1 (f, P) q = if f q =? 3 then (fupd f q 4, P ++ [q]) else (f, P)) by reflexivity.
    rewrite Hv. clear Hv.
    destruct (Z.eqb_spec (f q) 3) as [E1|E1].
    + destruct (@rep_store mem mp f q 4 Hr Hq) as (mp' & Hst & Hr').
      rewrite Hst. cbn [bind]. rewrite neighbour_nb by (apply Hz; [exact Hq | fold q; rewrite E1; discriminate]). fold q.
      apply IH; auto.
      intros r Hrf Hne. unfold fupd in Hne. apply Hz; auto. destruct (peq r q) as [e|]; [rewrite e, E1; discriminate|exact Hne].
    + apply IH; auto.
Qed.

(** The two loops on the level of pixels. *)
Definition nonzero (f : Z * Z -> Z) (p : Z * Z) : Z :=
  Z.of_nat (length (filter (fun q => negb (f q =? 0)) (nbrs p))).

Lemma flood_step_abs mp f P k E p :
  rep mp f -> (forall q, frame q -> f q <> 0 -> roi q) -> nth_error P k = Some p -> roi p ->
  exists mp', flood_step w (w + 2) x y (mkFlood mp P k E) =
    Ok (mkFlood mp' (P ++ filter (fun q => f q =? 1) (nbrs p)) (S k)
          (if nonzero f p =? 8 then E else E ++ [p])) /\
    rep mp' (fun q => if negb (nonzero f p =? 8) && mem_in q [p] then 3
                      else if mem_in q (nbrs p) && (f q =? 1) then 2 else f q).
Proof.
  intros Hr Hz Hn Hp. unfold flood_step. cbn [fpts fid fmap fedges]. rewrite Hn, point_ptr_off by assumption.
  destruct (visit_abs p (ring w (w + 2)) (off p) mp f P 0 Hr Hz) as (mp' & Hv).
  - intros q. rewrite ring_targets. apply nb_frame. exact Hp.
  - apply ring_steps.
  - lia.
  - cbn. lia.
  - rewrite ring_targets, ring_travel in Hv.
    destruct (vis_fold (nbrs p) f P 0 (nbrs_NoDup p)) as (f' & Hf & Hf').
    rewrite Hf in Hv. destruct Hv as (Hv & Hrep). rewrite Z.add_0_l in Hv.
    change (Z.of_nat (length (filter (fun q => negb (f q =? 0)) (nbrs p)))) with (nonzero f p) in Hv.
    rewrite Hv. cbn [bind].
    destruct (nonzero f p =? 8).
    + exists mp'. split; [reflexivity|]. cbn [negb andb]. apply rep_ext with f'; auto.
    + replace (padd (map_ptr (off p + (w + 3))) (-1 - (w + 2))) with (map_ptr (off p))
        by (unfold padd, map_ptr; cbn [fst snd]; f_equal; lia).
      destruct (@rep_store mem mp' f' p EDGE Hrep (roi_frame p Hp)) as (mp2 & -> & Hrep2).
      exists mp2. split; [reflexivity|]. apply (rep_ext _ _ _ Hrep2).
      intros q _. cbn [negb andb]. unfold fupd, mem_in at 1.
      destruct (peq q p) as [->|n].
      * destruct (in_dec peq p [p]) as [_|n]; [reflexivity|]. contradict n. left. reflexivity.
      * destruct (in_dec peq q [p]) as [[->|[]]|_]; [contradiction|]. apply Hf'.
Qed.

Lemma trace_step_abs mp f P k E p :
  rep mp f -> (forall q, frame q -> f q <> 0 -> roi q) -> nth_error P k = Some p -> roi p ->
  exists mp', trace_step w (w + 2) x y (mkFlood mp P k E) =
    Ok (mkFlood mp' (P ++ filter (fun q => f q =? 3) (nbrs p)) (S k) E) /\
    rep mp' (fun q => if mem_in q (nbrs p) && (f q =? 3) then 4 else f q).
Proof.
  intros Hr Hz Hn Hp. unfold trace_step. cbn [fpts fid fmap fedges]. rewrite Hn, point_ptr_off by assumption.
  destruct (trace_abs p (ring w (w + 2)) (off p) mp f P Hr Hz) as (mp' & Hv).
  - intros q. rewrite ring_targets. apply nb_frame. exact Hp.
  - apply ring_steps.
  - rewrite ring_targets in Hv.
    destruct (tra_fold (nbrs p) f P (nbrs_NoDup p)) as (f' & Hf & Hf').
    rewrite Hf in Hv. destruct Hv as (Hv & Hrep).
    rewrite Hv. cbn [bind fst snd]. exists mp'. split; [reflexivity|]. apply rep_ext with f'; auto.
Qed.

(** ** The points of the region *)
Definition zrange (a n : Z) : list Z := map (fun k => a + Z.of_nat k) (seq 0 (Z.to_nat n)).
Definition roi_points : list (Z * Z) := list_prod (zrange x w) (zrange y h).

Lemma in_zrange a n v : In v (zrange a n) <-> a <= v < a + n.
Proof.
  unfold zrange. rewrite in_map_iff. split.
  - intros (k & <- & Hk). apply in_seq in Hk. lia.
  - intros Hv. exists (Z.to_nat (v - a)). rewrite in_seq. lia.
Qed.

Lemma roi_points_spec p : In p roi_points <-> roi p.
Proof.
  destruct p as (a, b). unfold roi_points. rewrite in_prod_iff, !in_zrange. unfold roi. cbn. tauto.
Qed.

Lemma roi_length P : NoDup P -> (forall p, In p P -> roi p) -> (length P <= Z.to_nat (w * h))%nat.
Proof.
  intros Hn Hp. apply Nat.le_trans with (length roi_points).
  - apply NoDup_incl_length; auto. intros p Hin. apply roi_points_spec, Hp, Hin.
  - unfold roi_points, zrange. rewrite prod_length, !map_length, !seq_length. rewrite Z2Nat.inj_mul; lia.
Qed.

Lemma nth_In_firstn {A} (P : list A) k p R :
  nth_error P k = Some p -> firstn (S k) (P ++ R) = firstn k P ++ [p].
Proof.
  revert k. induction P as [|a P IH]; intros k Hk; destruct k; cbn in Hk; try discriminate.
  - injection Hk as ->. reflexivity.
  - cbn [app firstn]. f_equal. apply IH. exact Hk.
Qed.

Lemma nth_not_firstn {A} (P : list A) k p : NoDup P -> nth_error P k = Some p -> ~ In p (firstn k P).
Proof.
  revert k. induction P as [|a P IH]; intros k Hn Hk; destruct k; cbn in Hk; try discriminate; cbn [firstn].
  - intros [].
  - inversion Hn; subst. intros [->|Hin].
    + apply nth_error_In in Hk. contradiction.
    + revert Hin. apply IH; auto.
Qed.

Lemma firstn_incl {A} k (P : list A) q : In q (firstn k P) -> In q P.
Proof. revert k; induction P; intros [|k]; cbn; intros H; try contradiction. destruct H; auto. right. eauto. Qed.

Lemma NoDup_app_intro {A} (P Q : list A) : NoDup P -> NoDup Q -> (forall q, In q P -> ~ In q Q) -> NoDup (P ++ Q).
Proof.
  induction P as [|a P IH]; intros H1 H2 H3; auto. cbn. inversion H1; subst. constructor.
  - rewrite in_app_iff. intros [|]; [contradiction|]. apply (H3 a); auto. left; auto.
  - apply IH; auto. intros q Hq. apply H3. right; auto.
Qed.

Lemma more_false s : more s = false -> fid s = length (fpts s).
Proof. unfold more. intros H. apply negb_false_iff, Nat.eqb_eq in H. exact H. Qed.

Lemma more_true s : (fid s <= length (fpts s))%nat -> more s = true -> exists p, nth_error (fpts s) (fid s) = Some p.
Proof.
  unfold more. intros Hl H. apply negb_true_iff, Nat.eqb_neq in H.
  destruct (nth_error (fpts s) (fid s)) as [p|] eqn:E; [eauto|]. apply nth_error_None in E. lia.
Qed.

(** ** One blob *)
Section OneBlob.
Variable white : Z * Z -> Prop.
Variable f0 : Z * Z -> Z.
Variable seed : Z * Z.
Hypothesis Hwhite_roi : forall p, white p -> roi p.
Hypothesis Hf0 : forall p, frame p -> (f0 p <> 0 <-> white p).
Hypothesis Hseed : f0 seed = 1.
Hypothesis Hseed_white : white seed.
Hypothesis Huniform : forall p q, white p -> f0 p = 1 -> adjacent p q -> white q -> f0 q = 1.

Definition edge (p : Z * Z) : bool := negb (nonzero f0 p =? 8).

Record flooded (s : flood) (f : Z * Z -> Z) : Prop := mkFlooded {
  fl_rep : rep (fmap s) f;
  fl_nodup : NoDup (fpts s);
  fl_seed : In seed (fpts s);
  fl_pts : forall p, In p (fpts s) -> f0 p = 1 /\ white p /\ linked white seed p;
  fl_id : (fid s <= length (fpts s))%nat;
  fl_val : forall q, frame q ->
    f q = if mem_in q (fpts s) then if mem_in q (fedges s) then 3 else 2 else f0 q;
  fl_closed : forall p q, In p (firstn (fid s) (fpts s)) -> adjacent p q -> white q -> In q (fpts s);
  fl_edges : fedges s = filter edge (firstn (fid s) (fpts s))
}.

Lemma mem_in_false p l : mem_in p l = false <-> ~ In p l.
Proof. unfold mem_in. destruct (in_dec peq p l); split; auto; try discriminate; contradiction. Qed.

Lemma adj_frame p q : roi p -> adjacent p q -> frame q.
Proof. intros Hp Hq. apply nb_frame with p; auto. apply in_nbrs; auto. Qed.

Lemma flood_run mp : rep mp f0 ->
  exists mp1 s f, store mp (map_ptr (off seed)) FOUND = @Ok mem mem mp1 /\
    loop (fuel_of ((w + 2) * (h + 2))) more (flood_step w (w + 2) x y) (mkFlood mp1 [seed] 0 []) = Ok s /\
    flooded s f /\ fid s = length (fpts s).
Proof.
  intros Hr. assert (Hsr : roi seed) by auto.
  destruct (@rep_store mem mp f0 seed FOUND Hr (roi_frame _ Hsr)) as (mp1 & Hst & Hr1).
  exists mp1.
  destruct (@loop_inv mem flood (fun s => exists f, flooded s f) (fun s => (Z.to_nat (w * h) - fid s)%nat)
              more (flood_step w (w + 2) x y) (fuel_of ((w + 2) * (h + 2))) (mkFlood mp1 [seed] 0 []))
    as (s & Hl & (f & Hf) & Hm).
  - exists (fupd f0 seed FOUND). constructor; cbn [fmap fpts fid fedges firstn filter].
    + exact Hr1.
    + repeat constructor. intros [].
    + left; reflexivity.
    + intros p [<-|[]]. repeat split; auto. constructor.
    + cbn. lia.
    + intros q Hq. unfold fupd, mem_in. destruct (peq q seed) as [->|n].
      * destruct (in_dec peq seed [seed]) as [_|n]; [reflexivity|]. contradict n. left; reflexivity.
      * destruct (in_dec peq q [seed]) as [[->|[]]|_]; [contradiction|reflexivity].
    + intros p q [].
    + reflexivity.
  - cbn [fid]. unfold fuel_of. assert (w * h < (w + 2) * (h + 2)) by nia. lia.
  - intros [mq P k E] (f & Hf) Hc. destruct Hf as [F1 F2 F3 F4 F5 F6 F7 F8].
    cbn [fmap fpts fid fedges] in *.
    destruct (more_true (mkFlood mq P k E) F5 Hc) as (p & Hp). cbn [fpts fid] in Hp.
    assert (HpP : In p P) by (eapply nth_error_In; eauto).
    destruct (F4 p HpP) as (Hp1 & Hpw & Hpl). assert (Hpr : roi p) by auto.
    assert (Hz : forall q, frame q -> (f q =? 0) = (f0 q =? 0)).
    { intros q Hq. rewrite F6 by assumption. destruct (mem_in q P) eqn:Eq; [|reflexivity].
      apply mem_in_spec in Eq. destruct (F4 q Eq) as (-> & _). destruct (mem_in q E); reflexivity. }
    assert (H1 : forall q, frame q -> (f q = 1 <-> ~ In q P /\ f0 q = 1)).
    { intros q Hq. rewrite F6 by assumption. destruct (mem_in q P) eqn:Eq.
      - apply mem_in_spec in Eq. destruct (mem_in q E); split; intros A; try discriminate; tauto.
      - apply mem_in_false in Eq. tauto. }
    assert (Hnz : nonzero f p = nonzero f0 p).
    { unfold nonzero. do 2 f_equal. apply filter_ext_in. intros q Hq. rewrite Hz; auto. eapply nb_frame; eauto. }
    assert (Hzr : forall q, frame q -> f q <> 0 -> roi q).
    { intros q Hq Hne. apply Hwhite_roi, Hf0; auto. intros E0. apply Hne, Z.eqb_eq. rewrite Hz by assumption. apply Z.eqb_eq, E0. }
    destruct (flood_step_abs mq f P k E p F1 Hzr Hp Hpr) as (mp' & Hs & Hrep).
    assert (Hpnf : ~ In p (firstn k P)) by (apply nth_not_firstn; auto).
    assert (HpE : ~ In p E). { rewrite F8. intros Hin. apply filter_In in Hin. tauto. }
    assert (Hnew : forall q, In q (filter (fun q => f q =? 1) (nbrs p)) -> adjacent p q /\ ~ In q P /\ f0 q = 1 /\ white q).
    { intros q Hq. apply filter_In in Hq. destruct Hq as (Hq & Eq). apply Z.eqb_eq in Eq.
      assert (Hqf : frame q) by (eapply nb_frame; eauto).
      apply in_nbrs in Hq. apply H1 in Eq; auto. destruct Eq as (Hn & Eq). repeat split; auto; try apply Hq.
      apply Hf0; auto. rewrite Eq. discriminate. }
    eexists. split; [exact Hs|]. split.
    + eexists. constructor; cbn [fmap fpts fid fedges].
      * exact Hrep.
      * apply NoDup_app_intro; auto.
        -- apply NoDup_filter, nbrs_NoDup.
        -- intros q Hq Hq'. apply Hnew in Hq'. tauto.
      * apply in_or_app. auto.
      * intros q Hq. apply in_app_or in Hq. destruct Hq as [Hq|Hq]; auto.
        destruct (Hnew q Hq) as (A & _ & B & C). repeat split; auto. eapply linked_step; eauto.
      * rewrite app_length. assert (nth_error P k <> None) as Hne by congruence; apply nth_error_Some in Hne; lia.
      * intros q Hq. rewrite Hnz. fold (edge p).
        destruct (mem_in q (P ++ filter (fun q => f q =? 1) (nbrs p))) eqn:Eq.
        -- apply mem_in_spec, in_app_or in Eq.
           destruct (peq q p) as [->|nqp].
           ++ rewrite (proj2 (mem_in_spec p [p])) by (left; reflexivity). rewrite andb_true_r.
              unfold edge. destruct (nonzero f0 p =? 8); cbn [negb].
              ** destruct (mem_in p (nbrs p)) eqn:En.
                 { apply mem_in_spec, in_nbrs in En. destruct En as (En & _). contradiction. }
                 cbn [andb]. rewrite F6 by assumption. rewrite (proj2 (mem_in_spec p P) HpP). reflexivity.
              ** rewrite (proj2 (mem_in_spec p (E ++ [p]))); [reflexivity|]. apply in_or_app. right. left. reflexivity.
           ++ rewrite (proj2 (mem_in_false q [p])) by (intros [->|[]]; contradiction). rewrite andb_false_r.
              assert (HE : mem_in q (if nonzero f0 p =? 8 then E else E ++ [p]) = mem_in q E).
              { destruct (nonzero f0 p =? 8); [reflexivity|]. destruct (mem_in q E) eqn:EE.
                - apply mem_in_spec in EE. apply mem_in_spec, in_or_app. auto.
                - apply mem_in_false in EE. apply mem_in_false. rewrite in_app_iff. intros [|[->|[]]]; contradiction. }
              rewrite HE. destruct Eq as [Eq|Eq].
              ** rewrite F6 by assumption. rewrite (proj2 (mem_in_spec q P) Eq).
                 destruct (mem_in q E); rewrite andb_false_r; reflexivity.
              ** destruct (Hnew q Eq) as (A & B & C & D). apply filter_In in Eq. destruct Eq as (Eq & Ef).
                 rewrite (proj2 (mem_in_spec q (nbrs p)) Eq), Ef. cbn [andb].
                 rewrite (proj2 (mem_in_false q E)); [reflexivity|].
                 rewrite F8. intros Hin. apply filter_In in Hin. destruct Hin as (Hin & _). apply firstn_incl in Hin. contradiction.
        -- apply mem_in_false in Eq. rewrite in_app_iff in Eq.
           rewrite (proj2 (mem_in_false q [p])) by (intros [->|[]]; tauto). rewrite andb_false_r.
           destruct (mem_in q (nbrs p) && (f q =? 1)) eqn:En.
           ++ apply andb_prop in En. destruct En as (En & Ef). apply mem_in_spec in En.
              contradict Eq. right. apply filter_In. auto.
           ++ rewrite F6 by assumption. rewrite (proj2 (mem_in_false q P)) by tauto. reflexivity.
      * intros a b Ha Hab Hb. rewrite (nth_In_firstn _ _ _ _ Hp) in Ha. apply in_app_or in Ha. apply in_or_app.
        destruct Ha as [Ha|[<-|[]]]; [left; eauto|].
        destruct (mem_in b P) eqn:Eb; [left; apply mem_in_spec; exact Eb|].
        apply mem_in_false in Eb. right. apply filter_In. split; [apply in_nbrs; exact Hab|].
        apply Z.eqb_eq, H1; [eapply adj_frame; eauto|]. split; auto. apply (Huniform p b); auto.
      * rewrite (nth_In_firstn _ _ _ _ Hp), filter_app, <- F8, Hnz. cbn [filter]. fold (edge p).
        unfold edge. destruct (nonzero f0 p =? 8); cbn [negb]; [rewrite app_nil_r|]; reflexivity.
    + cbn [fid]. assert (nth_error P k <> None) as Hne by congruence. apply nth_error_Some in Hne.
      assert (length P <= Z.to_nat (w * h))%nat. { apply roi_length; auto. intros q Hq. apply Hwhite_roi, F4, Hq. }
      lia.
  - exists s, f. split; [exact Hst|]. split; [exact Hl|]. split; [exact Hf|]. apply more_false, Hm.
Qed.

(** The second loop: [P] the points of the blob, [f1] the map after the first loop. *)
Section Trace.
Variable P : list (Z * Z).
Variable f1 : Z * Z -> Z.
Hypothesis HPin : forall p, In p P -> white p.
Hypothesis HPclosed : forall p q, In p P -> adjacent p q -> white q -> In q P.
Hypothesis HPseed : In seed P.
Hypothesis Hseed_edge : edge seed = true.
Hypothesis Hf1 : forall q, frame q -> f1 q = if mem_in q P then if edge q then 3 else 2 else f0 q.

Definition on_edge (p : Z * Z) : Prop := In p P /\ edge p = true.

Record traced (s : flood) (f : Z * Z -> Z) : Prop := mkTraced {
  tr_rep : rep (fmap s) f;
  tr_nodup : NoDup (fpts s);
  tr_seed : In seed (fpts s);
  tr_pts : forall p, In p (fpts s) -> on_edge p /\ linked on_edge seed p;
  tr_id : (fid s <= length (fpts s))%nat;
  tr_val : forall q, frame q -> f q = if mem_in q (fpts s) then 4 else f1 q;
  tr_closed : forall p q, In p (firstn (fid s) (fpts s)) -> adjacent p q -> on_edge q -> In q (fpts s)
}.

Lemma trace_run mp : rep mp f1 ->
  exists mp1 s f, store mp (map_ptr (off seed)) CONTOUR = @Ok mem mem mp1 /\
    loop (fuel_of ((w + 2) * (h + 2))) more (trace_step w (w + 2) x y) (mkFlood mp1 [seed] 0 []) = Ok s /\
    traced s f /\ fid s = length (fpts s).
Proof.
  intros Hr. assert (Hsr : roi seed) by auto.
  destruct (@rep_store mem mp f1 seed CONTOUR Hr (roi_frame _ Hsr)) as (mp1 & Hst & Hr1).
  exists mp1.
  destruct (@loop_inv mem flood (fun s => exists f, traced s f) (fun s => (Z.to_nat (w * h) - fid s)%nat)
              more (trace_step w (w + 2) x y) (fuel_of ((w + 2) * (h + 2))) (mkFlood mp1 [seed] 0 []))
    as (s & Hl & (f & Hf) & Hm).
  - exists (fupd f1 seed CONTOUR). constructor; cbn [fmap fpts fid fedges firstn filter].
    + exact Hr1.
    + repeat constructor. intros [].
    + left; reflexivity.
    + intros p [<-|[]]. split; [split; auto|constructor].
    + cbn. lia.
    + intros q Hq. unfold fupd, mem_in. destruct (peq q seed) as [->|n].
      * destruct (in_dec peq seed [seed]) as [_|n]; [reflexivity|]. contradict n. left; reflexivity.
      * destruct (in_dec peq q [seed]) as [[->|[]]|_]; [contradiction|reflexivity].
    + intros p q [].
  - cbn [fid]. unfold fuel_of. assert (w * h < (w + 2) * (h + 2)) by nia. lia.
  - intros [mq C k E] (f & Hf) Hc. destruct Hf as [F1 F2 F3 F4 F5 F6 F7].
    cbn [fmap fpts fid fedges] in *.
    destruct (more_true (mkFlood mq C k E) F5 Hc) as (p & Hp). cbn [fpts fid] in Hp.
    assert (HpC : In p C) by (eapply nth_error_In; eauto).
    destruct (F4 p HpC) as ((HpP & Hpe) & Hpl). assert (Hpw : white p) by auto. assert (Hpr : roi p) by auto.
    assert (H3 : forall q, adjacent p q -> (f q = 3 <-> ~ In q C /\ on_edge q)).
    { intros q Hpq. assert (Hq : frame q) by (eapply adj_frame; eauto).
      rewrite F6 by assumption. destruct (mem_in q C) eqn:Eq.
      - apply mem_in_spec in Eq. split; intros A; [discriminate|tauto].
      - apply mem_in_false in Eq. rewrite Hf1 by assumption. unfold on_edge. destruct (mem_in q P) eqn:EP.
        + apply mem_in_spec in EP. destruct (edge q); split; intros A; try discriminate; try tauto.
          destruct A as (_ & _ & A). discriminate.
        + apply mem_in_false in EP. split; [|tauto]. intros A. exfalso. apply EP. apply (HPclosed p); auto.
          apply Hf0; auto. rewrite A. discriminate. }
    assert (Hzr : forall q, frame q -> f q <> 0 -> roi q).
    { intros q Hq Hne. apply Hwhite_roi. rewrite F6 in Hne by assumption. destruct (mem_in q C) eqn:Eq.
      - apply mem_in_spec in Eq. apply HPin. apply F4 in Eq. apply Eq.
      - rewrite Hf1 in Hne by assumption. destruct (mem_in q P) eqn:EP.
        + apply HPin, mem_in_spec, EP.
        + apply Hf0; auto. }
    destruct (trace_step_abs mq f C k E p F1 Hzr Hp Hpr) as (mp' & Hs & Hrep).
    assert (Hnew : forall q, In q (filter (fun q => f q =? 3) (nbrs p)) -> adjacent p q /\ ~ In q C /\ on_edge q).
    { intros q Hq. apply filter_In in Hq. destruct Hq as (Hq & Eq). apply Z.eqb_eq in Eq.
      apply in_nbrs in Hq. apply H3 in Eq; auto. }
    eexists. split; [exact Hs|]. split.
    + eexists. constructor; cbn [fmap fpts fid fedges].
      * exact Hrep.
      * apply NoDup_app_intro; auto.
        -- apply NoDup_filter, nbrs_NoDup.
        -- intros q Hq Hq'. apply Hnew in Hq'. tauto.
      * apply in_or_app. auto.
      * intros q Hq. apply in_app_or in Hq. destruct Hq as [Hq|Hq]; auto.
        destruct (Hnew q Hq) as (A & _ & B). split; auto. eapply linked_step; eauto.
      * rewrite app_length. assert (nth_error C k <> None) as Hne by congruence; apply nth_error_Some in Hne; lia.
      * intros q Hq.
        destruct (mem_in q (C ++ filter (fun q => f q =? 3) (nbrs p))) eqn:Eq.
        -- apply mem_in_spec, in_app_or in Eq. destruct Eq as [Eq|Eq].
           ++ rewrite F6 by assumption. rewrite (proj2 (mem_in_spec q C) Eq). cbn [Z.eqb Pos.eqb]. rewrite andb_false_r. reflexivity.
           ++ apply filter_In in Eq. destruct Eq as (Eq & Ef).
              rewrite (proj2 (mem_in_spec q (nbrs p)) Eq), Ef. reflexivity.
        -- apply mem_in_false in Eq. rewrite in_app_iff in Eq.
           destruct (mem_in q (nbrs p) && (f q =? 3)) eqn:En.
           ++ apply andb_prop in En. destruct En as (En & Ef). apply mem_in_spec in En.
              contradict Eq. right. apply filter_In. auto.
           ++ rewrite F6 by assumption. rewrite (proj2 (mem_in_false q C)) by tauto. reflexivity.
      * intros a b Ha Hab Hb. rewrite (nth_In_firstn _ _ _ _ Hp) in Ha. apply in_app_or in Ha. apply in_or_app.
        destruct Ha as [Ha|[<-|[]]]; [left; eauto|].
        destruct (mem_in b C) eqn:Eb; [left; apply mem_in_spec; exact Eb|].
        apply mem_in_false in Eb. right. apply filter_In. split; [apply in_nbrs; exact Hab|].
        apply Z.eqb_eq, H3; auto.
    + cbn [fid]. assert (nth_error C k <> None) as Hne by congruence. apply nth_error_Some in Hne.
      assert (length C <= Z.to_nat (w * h))%nat. { apply roi_length; auto. intros q Hq. apply Hwhite_roi, HPin, F4, Hq. }
      lia.
  - exists s, f. split; [exact Hst|]. split; [exact Hl|]. split; [exact Hf|]. apply more_false, Hm.
Qed.

End Trace.

Lemma seed_coords : (u32 (off seed mod (w + 2) + x - 1), u32 (off seed / (w + 2) + y - 1)) = seed.
Proof.
  assert (Hs : roi seed) by auto. destruct Hs as (H1 & H2). unfold off.
  assert (E1 : ((snd seed + 1 - y) * (w + 2) + (fst seed + 1 - x)) mod (w + 2) = fst seed + 1 - x).
  { rewrite Z.add_comm, Z.mod_add by lia. apply Z.mod_small. lia. }
  assert (E2 : ((snd seed + 1 - y) * (w + 2) + (fst seed + 1 - x)) / (w + 2) = snd seed + 1 - y).
  { rewrite Z.div_add_l by lia. rewrite Z.div_small by lia. lia. }
  rewrite E1, E2, !u32_small by lia. destruct seed as (a, b). cbn [fst snd]. f_equal; lia.
Qed.

(** What one call of [extract] achieves. *)
Record good (b : blob) : Prop := mkGood {
  g_nodup : NoDup (bpoints b);
  g_points : forall q, In q (bpoints b) <-> linked white seed q;
  g_enodup : NoDup (bedges b);
  g_edges : forall q, In q (bedges b) <-> In q (bpoints b) /\ edge q = true;
  g_cnodup : NoDup (bcontour b);
  g_contour : forall q, In q (bcontour b) <-> linked (fun p => In p (bedges b)) seed q
}.

Lemma extract_ok mp : rep mp f0 -> edge seed = true ->
  exists mp' b f', extract w h (w + 2) x y (off seed) mp = Ok (mp', b) /\ rep mp' f' /\ good b /\
    (forall q, In q (bpoints b) -> f0 q = 1 /\ white q) /\
    (forall q, frame q -> In q (bpoints b) -> f' q <> 0 /\ f' q <> 1) /\
    (forall q, frame q -> ~ In q (bpoints b) -> f' q = f0 q) /\
    (forall p q, In p (bpoints b) -> adjacent p q -> white q -> In q (bpoints b)).
Proof.
  intros Hr He.
  destruct (flood_run mp Hr) as (mp1 & s & f & Hst & Hl & Hf & Hk).
  destruct Hf as [F1 F2 F3 F4 F5 F6 F7 F8]. rewrite Hk, firstn_all in F7, F8.
  assert (Hf1 : forall q, frame q -> f q = if mem_in q (fpts s) then if edge q then 3 else 2 else f0 q).
  { intros q Hq. rewrite F6 by assumption. destruct (mem_in q (fpts s)) eqn:Eq; [|reflexivity].
    apply mem_in_spec in Eq. rewrite F8. destruct (edge q) eqn:Ee.
    - rewrite (proj2 (mem_in_spec q (filter edge (fpts s)))); [reflexivity|]. apply filter_In; auto.
    - rewrite (proj2 (mem_in_false q (filter edge (fpts s)))); [reflexivity|]. rewrite filter_In, Ee. intros (_ & ?); discriminate. }
  destruct (trace_run (fpts s) f ltac:(intros p Hp; apply F4, Hp) F7 F3 He Hf1 (fmap s) F1)
    as (mp2 & c & f' & Hst2 & Hl2 & Ht & Hk2).
  destruct Ht as [T1 T2 T3 T4 T5 T6 T7]. rewrite Hk2, firstn_all in T7.
  exists (fmap c), (mkBlob (fpts s) (fedges s) (fpts c)), f'. cbn [bpoints bedges bcontour].
  split; [|split; [exact T1|split; [|split; [|split; [|split]]]]].
  - unfold extract. rewrite seed_coords, Hst. cbn [bind].
    rewrite (u32_small (h + 2)) by nia. rewrite Hl. cbn [bind]. rewrite Hst2. cbn [bind]. rewrite Hl2. reflexivity.
  - assert (Hin : forall q, In q (fedges s) <-> on_edge (fpts s) q).
    { intros q. rewrite F8, filter_In. reflexivity. }
    constructor; cbn [bpoints bedges bcontour]; auto.
    + intros q. split; [apply F4|]. intros Hq. apply (linked_closed white (fun r => In r (fpts s)) seed q); auto.
    + rewrite F8. apply NoDup_filter, F2.
    + intros q. split.
      * intros Hq. destruct (T4 q Hq) as (_ & Hq'). revert Hq'. apply linked_mono. intros r. apply Hin.
      * intros Hq. apply (linked_closed (fun p => In p (fedges s)) (fun r => In r (fpts c)) seed q); auto.
        intros a b Ha Hab Hb. apply (T7 a); auto. apply Hin, Hb.
  - intros q Hq. destruct (F4 q Hq) as (? & ? & _). auto.
  - intros q Hq Hin. rewrite T6 by assumption. destruct (mem_in q (fpts c)); [split; discriminate|].
    rewrite Hf1 by assumption. rewrite (proj2 (mem_in_spec q (fpts s)) Hin). destruct (edge q); split; discriminate.
  - intros q Hq Hin. rewrite T6 by assumption.
    assert (~ In q (fpts c)). { intros Hc. apply T4 in Hc. destruct Hc as ((Hc & _) & _). contradiction. }
    rewrite (proj2 (mem_in_false q (fpts c))) by assumption.
    rewrite Hf1 by assumption. rewrite (proj2 (mem_in_false q (fpts s))) by assumption. reflexivity.
  - exact F7.
Qed.

End OneBlob.

(** ** The scan *)

(** [b] is the 8-connected component of [seed], its first pixel in reading order. *)
Record component (white : Z * Z -> Prop) (seed : Z * Z) (b : blob) : Prop := mkComponent {
  co_seed : white seed;
  co_first : forall q, In q (bpoints b) -> reads_before seed q;
  co_nodup : NoDup (bpoints b);
  co_points : forall q, In q (bpoints b) <-> linked white seed q;
  co_enodup : NoDup (bedges b);
  co_edges : forall q, In q (bedges b) <-> In q (bpoints b) /\ exists r, adjacent q r /\ ~ white r;
  co_cnodup : NoDup (bcontour b);
  co_contour : forall q, In q (bcontour b) <-> linked (fun p => In p (bedges b)) seed q
}.

Lemma filter_all_length {A} (g : A -> bool) l :
  length (filter g l) = length l <-> forall a, In a l -> g a = true.
Proof.
  induction l as [|a l IH]; cbn; [tauto|].
  assert (Hle : (length (filter g l) <= length l)%nat).
  { clear. induction l as [|b l IH]; cbn; [lia|]. destruct (g b); cbn; lia. }
  destruct (g a) eqn:E; cbn [length].
  - split.
    + intros H b [<-|Hb]; auto. apply IH; auto.
    + intros H. f_equal. apply IH. intros b Hb. apply H. auto.
  - split; [lia|]. intros H. rewrite (H a) in E by auto. discriminate.
Qed.

Lemma edge_spec (white : Z * Z -> Prop) f0 q :
  (forall p, frame p -> (f0 p <> 0 <-> white p)) -> roi q ->
  (edge f0 q = true <-> exists r, adjacent q r /\ ~ white r).
Proof.
  intros Hf Hq. unfold edge, nonzero. rewrite negb_true_iff, Z.eqb_neq.
  set (g := fun q => negb (f0 q =? 0)).
  assert (Hg : forall r, In r (nbrs q) -> (g r = true <-> white r)).
  { intros r Hr. unfold g. rewrite negb_true_iff, Z.eqb_neq. apply Hf. eapply nb_frame; eauto. }
  split.
  - intros Hn. destruct (forallb g (nbrs q)) eqn:Ea.
    + exfalso. apply Hn. rewrite forallb_forall in Ea. apply filter_all_length in Ea. rewrite Ea. reflexivity.
    + assert (exists r, In r (nbrs q) /\ g r = false) as (r & Hr & Er).
      { clear -Ea. induction (nbrs q) as [|a l IH]; cbn in Ea; [discriminate|].
        destruct (g a) eqn:E; [|exists a; split; [left; reflexivity|exact E]].
        destruct IH as (r & Hr & Er); auto. exists r. split; [right|]; auto. }
      exists r. split; [apply in_nbrs; exact Hr|]. intros Hw'. apply Hg in Hw'; auto. congruence.
  - intros (r & Hr & Hnw) E. apply Hnw. apply in_nbrs in Hr. apply Hg; auto.
    assert (El : length (filter g (nbrs q)) = length (nbrs q)).
    { change (length (nbrs q)) with 8%nat. lia. }
    rewrite filter_all_length in El. apply El, Hr.
Qed.

Lemma off_reads p q : frame p -> frame q -> off p <= off q -> reads_before p q.
Proof.
  unfold frame, off, reads_before. intros (H1 & H2) (H3 & H4) H.
  destruct (Z.lt_trichotomy (snd p) (snd q)) as [|[E|]]; auto.
  - right. split; auto. rewrite E in H. lia.
  - exfalso. nia.
Qed.

Lemma off_surj o : 0 <= o < (w + 2) * (h + 2) -> exists p, frame p /\ off p = o.
Proof.
  intros Ho. exists (o mod (w + 2) + x - 1, o / (w + 2) + y - 1).
  pose proof (Z.mod_pos_bound o (w + 2) ltac:(lia)).
  assert (0 <= o / (w + 2) < h + 2).
  { split; [apply Z.div_pos; lia|]. apply Z.div_lt_upper_bound; lia. }
  unfold frame, off. cbn [fst snd]. split; [lia|].
  replace (o / (w + 2) + y - 1 + 1 - y) with (o / (w + 2)) by ring.
  replace (o mod (w + 2) + x - 1 + 1 - x) with (o mod (w + 2)) by ring.
  rewrite Z.mul_comm. symmetry. apply Z.div_mod. lia.
Qed.

Section Scan.
Variable white : Z * Z -> Prop.
Hypothesis Hwhite_roi : forall p, white p -> roi p.

Record scanned (o : Z) (s : mem * list blob) (f : Z * Z -> Z) : Prop := mkScanned {
  sc_rep : rep (fst s) f;
  sc_white : forall p, frame p -> (f p <> 0 <-> white p);
  sc_uniform : forall p q, white p -> f p = 1 -> adjacent p q -> white q -> f q = 1;
  sc_before : forall p, frame p -> off p < o -> f p <> 1;
  sc_blobs : forall b, In b (snd s) -> exists seed, component white seed b;
  sc_nodup : NoDup (concat (map bpoints (snd s)));
  sc_cover : forall p, In p (concat (map bpoints (snd s))) <-> white p /\ f p <> 1
}.

Definition scan_body (o : Z) (s : mem * list blob) : res mem (mem * list blob) :=
  let '(mp, found) := s in
  do v <- load mp (map_ptr o);
  if v =? NOT_IN_USE then
    do r <- extract w h (w + 2) x y o mp;
    Ok (fst r, found ++ [snd r])
  else Ok (mp, found).

Lemma scan_step o s : 0 <= o < (w + 2) * (h + 2) -> (exists f, scanned o s f) ->
  exists s', scan_body o s = Ok s' /\ exists f, scanned (o + 1) s' f.
Proof.
  intros Ho (f & Hf). destruct s as (mp, l). destruct Hf as [S1 S2 S3 S4 S5 S6 S7]. cbn [fst snd] in *.
  destruct (off_surj o Ho) as (p & Hp & <-).
  unfold scan_body. rewrite (rep_load mp f p) by assumption. cbn [bind]. unfold NOT_IN_USE.
  destruct (Z.eqb_spec (f p) 1) as [E1|E1].
  - assert (Hpw : white p). { apply S2; auto. rewrite E1. discriminate. }
    assert (Hpr : roi p) by auto.
    assert (Hleft : adjacent p (fst p - 1, snd p)).
    { split; [|cbn; lia]. destruct p as (a, b). cbn. intros X. injection X. lia. }
    assert (He : edge f p = true).
    { apply (edge_spec white f p S2 Hpr). exists (fst p - 1, snd p). split; auto. intros Hw'.
      apply (S4 (fst p - 1, snd p)).
      - eapply adj_frame; eauto.
      - unfold off. cbn [fst snd]. lia.
      - apply (S3 p); auto. }
    destruct (extract_ok white f p Hwhite_roi S2 E1 Hpw S3 mp S1 He) as (mp' & b & f' & Hx' & Hr' & Hg & Hb1 & Hb2 & Hb3 & Hb4).
    rewrite Hx'. cbn [bind fst snd]. eexists. split; [reflexivity|]. exists f'.
    assert (Hpb : In p (bpoints b)) by (apply (g_points _ _ _ _ Hg); constructor).
    assert (Hdec : forall q, In q (bpoints b) \/ ~ In q (bpoints b)) by (intros q; destruct (in_dec peq q (bpoints b)); auto).
    assert (Hnew : forall q, white q -> (f' q <> 1 <-> f q <> 1 \/ In q (bpoints b))).
    { intros q Hq. assert (Hqf : frame q) by (apply roi_frame; auto). destruct (Hdec q) as [Hin|Hin].
      - destruct (Hb2 q Hqf Hin). tauto.
      - rewrite Hb3 by assumption. tauto. }
    constructor; cbn [fst snd].
    + exact Hr'.
    + intros q Hq. destruct (Hdec q) as [Hin|Hin].
      * destruct (Hb2 q Hq Hin). destruct (Hb1 q Hin). tauto.
      * rewrite Hb3 by assumption. auto.
    + intros q r Hq Hq1 Hqr Hr0.
      assert (Hqf : frame q) by (apply roi_frame; auto). assert (Hrf : frame r) by (apply roi_frame; auto).
      destruct (Hdec q) as [Hin|Hin]; [destruct (Hb2 q Hqf Hin); contradiction|].
      rewrite Hb3 in Hq1 by assumption. pose proof (S3 q r Hq Hq1 Hqr Hr0) as Hr1.
      destruct (Hdec r) as [Hin'|Hin'].
      * exfalso. apply Hin. apply (Hb4 r q); auto. apply adjacent_sym; auto.
      * rewrite Hb3 by assumption. exact Hr1.
    + intros q Hq Hlt. destruct (Hdec q) as [Hin|Hin]; [apply Hb2; auto|].
      rewrite Hb3 by assumption. destruct (Z.eq_dec (off q) (off p)) as [E|E].
      * apply off_inj in E; auto. subst. contradiction.
      * apply S4; auto. lia.
    + intros c Hc. apply in_app_or in Hc. destruct Hc as [Hc|[<-|[]]]; auto.
      exists p. destruct Hg as [G1 G2 G3 G4 G5 G6]. constructor; auto.
      * intros q Hq. destruct (Hb1 q Hq) as (Q1 & Q2). assert (frame q) by (apply roi_frame; auto).
        apply off_reads; auto. destruct (Z_lt_le_dec (off q) (off p)) as [L|L]; auto.
        exfalso. apply (S4 q); auto.
      * intros q. rewrite G4. split; intros (A & B); split; auto; revert B; apply (edge_spec white f q S2);
          apply Hwhite_roi, Hb1, A.
    + rewrite map_app, concat_app. cbn [map concat]. rewrite app_nil_r. apply NoDup_app_intro; auto.
      * apply (g_nodup _ _ _ _ Hg).
      * intros q Hq Hq'. apply S7 in Hq. apply Hb1 in Hq'. tauto.
    + intros q. rewrite map_app, concat_app, in_app_iff. cbn [map concat]. rewrite app_nil_r, S7. split.
      * intros [(A & B)|A]; [split; auto; apply Hnew; auto|].
        assert (white q) by (apply Hb1, A). split; auto. apply Hnew; auto.
      * intros (A & B). apply Hnew in B; auto. tauto.
  - eexists. split; [reflexivity|]. exists f. constructor; cbn [fst snd]; auto.
    intros q Hq Hlt. destruct (Z.eq_dec (off q) (off p)) as [E|E].
    + apply off_inj in E; auto. rewrite E. exact E1.
    + apply S4; auto. lia.
Qed.

Lemma collect_ok mp f : rep mp f -> (forall p, frame p -> f p = 1 /\ white p \/ f p = 0 /\ ~ white p) ->
  exists mp' l, collect w h x y mp = Ok (mp', l) /\
    (forall b, In b l -> exists seed, component white seed b) /\
    NoDup (concat (map bpoints l)) /\
    (forall p, In p (concat (map bpoints l)) <-> white p).
Proof.
  intros Hr Hv. unfold collect.
  assert (A1 : (w + 2) * (h + 1) < (w + 2) * (h + 2)) by nia.
  rewrite (u32_small (w + 2)) by nia. rewrite (u32_small (h + 1)) by nia. rewrite (u32_small (h + 2)) by nia.
  rewrite !u32_small by nia.
  rewrite (walk_iterM ((w + 2) * (h + 1) - (w + 2))).
  2: lia. 2: nia. 2: { unfold padd, map_ptr. cbn [fst snd]. f_equal. lia. } 2: reflexivity.
  rewrite (iterM_ext _ _ _ (fun k => scan_body (w + 2 + k))).
  2: { intros k (mq, l) _. cbn [at_ combine map fst snd c0 nth]. unfold padd, map_ptr. cbn [fst snd].
       rewrite Z.mul_1_r. reflexivity. }
  destruct (@iterM_inv mem (mem * list blob) (fun k s => exists f, scanned (w + 2 + k) s f)
    (fun k => scan_body (w + 2 + k)) (Z.to_nat ((w + 2) * (h + 1) - (w + 2))) 0 (mp, [])) as ((mp' & l) & He & f' & Hf').
  - exists f. constructor; cbn [fst snd map concat].
    + exact Hr.
    + intros p Hp. destruct (Hv p Hp) as [(-> & Hw')|(-> & Hw')].
      * split; [intros _; exact Hw'|intros _; discriminate].
      * split; [intros X; exfalso; apply X; reflexivity|intros X; contradiction].
    + intros p q _ _ _ Hq. destruct (Hv q) as [(E & _)|(_ & Hn)]; auto; [apply roi_frame; auto|contradiction].
    + intros p Hp Hlt E. destruct (Hv p Hp) as [(_ & Hw')|(E0 & _)]; [|congruence].
      apply Hwhite_roi in Hw'. unfold roi, off in *. nia.
    + intros b [].
    + constructor.
    + intros p. split; [intros []|]. intros (Hw' & Hne). apply Hne.
      destruct (Hv p) as [(E & _)|(_ & Hn)]; auto; [apply roi_frame; auto|contradiction].
  - intros k s Hk Hs. replace (w + 2 + (k + 1)) with (w + 2 + k + 1) by lia.
    apply scan_step; auto. nia.
  - exists mp', l. split; [exact He|]. destruct Hf' as [S1 S2 S3 S4 S5 S6 S7]. cbn [fst snd] in *.
    split; [exact S5|]. split; [exact S6|]. intros p. rewrite S7. split; [tauto|].
    intros Hp. split; auto. pose proof (Hwhite_roi p Hp) as Hpr. apply S4; [apply roi_frame; auto|].
    unfold roi, off in *. nia.
Qed.

End Scan.
End Frame.

(** ** Marking *)
Definition bright (m : mem) (im : image) (x y w h threshold : Z) (p : Z * Z) : Prop :=
  x <= fst p < x + w /\ y <= snd p < y + h /\ threshold <= pixel m im (fst p) (snd p) 0.

Lemma bright_dec m im x y w h t p : {bright m im x y w h t p} + {~ bright m im x y w h t p}.
Proof.
  unfold bright.
  destruct (Z_le_dec x (fst p)), (Z_lt_dec (fst p) (x + w)), (Z_le_dec y (snd p)), (Z_lt_dec (snd p) (y + h)),
    (Z_le_dec t (pixel m im (fst p) (snd p) 0)); try (right; lia). left; lia.
Defined.

Lemma mark_ok m im x y w h t : area m im x y w h -> icc im = 1 -> (w + 2) * (h + 1) < W32 ->
  exists mp f, mark m im x y w h t (new_map w h) = Ok mp /\ rep w h x y mp f /\
    forall p, frame w h x y p -> f p = 1 /\ bright m im x y w h t p \/ f p = 0 /\ ~ bright m im x y w h t p.
Proof.
  intros (W & R) C Hsz.
  assert (Hw : 0 < w) by apply R. assert (Hh : 0 < h) by apply R.
  pose proof (wf_rs_pos _ _ W) as Hrs.
  pose proof (roi_rows_small m im x y w h W R) as Hsm.
  pose proof (wf_bounds _ _ W) as (B1 & B2 & B3 & B4).
  assert (Hx : 0 <= x) by apply R. assert (Hy : 0 <= y) by apply R.
  assert (Hxw : x + w <= W32) by (destruct R; lia). assert (Hyh : y + h <= W32) by (destruct R; lia).
  unfold mark. cbv zeta. rewrite (row_ptr_origin m im x y w h 1) by (auto; lia).
  rewrite (u32_small (w + 2)) by nia. unfold c0.
  rewrite (walk2_plain w); try reflexivity; try lia.
  set (f := fun j i p => if bright_dec m im x y w h t p then
       if (snd p <? y + j) || (snd p =? y + j) && (fst p <? x + i) then 1 else 0 else 0).
  destruct (@iterM2_inv mem mem (fun j i mp => rep w h x y mp (f j i))
    (fun j i mp => do v <- load m (nth 0 (cells (zip3 [origin im x y 1; map_ptr (w + 2 + 1)] [irs im; w + 2] [1; 1]) j i) nullp);
       if t <=? v then store mp (c1 (cells (zip3 [origin im x y 1; map_ptr (w + 2 + 1)] [irs im; w + 2] [1; 1]) j i)) NOT_IN_USE else Ok mp)
    h w (new_map w h)) as (mp & He & Hp); try lia.
  - split.
    + unfold new_map, len. cbn [Z.eqb blen]. rewrite (u32_small (h + 2)) by nia. rewrite (u32_small (w + 2)) by nia. ring.
    + intros p Hp. unfold new_map, get. cbn. unfold f. destruct (bright_dec m im x y w h t p) as [B|]; [|reflexivity].
      unfold bright in B. destruct (Z.ltb_spec (snd p) (y + 0)); [lia|].
      destruct (Z.ltb_spec (fst p) (x + 0)); [lia|]. rewrite andb_false_r. reflexivity.
  - intros j i mp Hj Hi Hr.
    set (p := (x + i, y + j)).
    assert (Hpf : frame w h x y p) by (unfold frame, p; cbn; lia).
    replace (nth 0 (cells (zip3 [origin im x y 1; map_ptr (w + 2 + 1)] [irs im; w + 2] [1; 1]) j i) nullp)
      with (padd (origin im x y (icc im)) (j * irs im + i)) by (rewrite C; cbn; rewrite !Z.mul_1_r; reflexivity).
    rewrite load_ok by (apply (cell_inb m im x y w h); auto; lia). cbn [bind].
    replace (c1 (cells (zip3 [origin im x y 1; map_ptr (w + 2 + 1)] [irs im; w + 2] [1; 1]) j i)) with (map_ptr (off w x y p))
      by (unfold off, p; cbn; unfold map_ptr, padd; cbn [fst snd]; f_equal; lia).
    assert (Ev : get m (padd (origin im x y (icc im)) (j * irs im + i)) = pixel m im (fst p) (snd p) 0).
    { unfold pixel, p. cbn [fst snd]. rewrite px_origin, C. do 2 f_equal. lia. }
    rewrite Ev.
    assert (Hother : forall q, frame w h x y q -> q <> p -> f j (i + 1) q = f j i q).
    { intros q Hq Hne. unfold f. destruct (bright_dec m im x y w h t q); [|reflexivity].
      assert (Hd : snd q <> y + j \/ fst q <> x + i).
      { destruct (Z.eq_dec (snd q) (y + j)); auto. destruct (Z.eq_dec (fst q) (x + i)); auto.
        exfalso. apply Hne. destruct q as (qa, qb). unfold p. cbn [fst snd] in *. congruence. }
      destruct (Z.ltb_spec (snd q) (y + j)); cbn [orb]; [reflexivity|].
      destruct (Z.eqb_spec (snd q) (y + j)); cbn [andb]; [|reflexivity].
      destruct (Z.ltb_spec (fst q) (x + (i + 1))), (Z.ltb_spec (fst q) (x + i)); try reflexivity; lia. }
    assert (Hb : t <= pixel m im (fst p) (snd p) 0 <-> bright m im x y w h t p).
    { unfold bright, p. cbn [fst snd]. lia. }
    destruct (Z.leb_spec t (pixel m im (fst p) (snd p) 0)) as [L|L].
    + destruct (@rep_store w h x y Hw Hh Hsz Hx Hxw Hy Hyh mem mp (f j i) p NOT_IN_USE Hr Hpf) as (mp' & -> & Hr').
      exists mp'. split; [reflexivity|]. apply (rep_ext _ _ _ _ _ _ _ Hr'). intros q Hq. unfold fupd.
      destruct (peq q p) as [->|n]; [|symmetry; apply Hother; auto].
      unfold f. destruct (bright_dec m im x y w h t p) as [B|B]; [|tauto].
      unfold p. cbn [fst snd]. destruct (Z.ltb_spec (y + j) (y + j)); [lia|].
      rewrite Z.eqb_refl. destruct (Z.ltb_spec (x + i) (x + (i + 1))); [reflexivity|lia].
    + exists mp. split; [reflexivity|]. apply (rep_ext _ _ _ _ _ _ _ Hr). intros q Hq.
      destruct (peq q p) as [->|n]; [|symmetry; apply Hother; auto].
      unfold f. destruct (bright_dec m im x y w h t p) as [B|B]; [|reflexivity].
      apply Hb in B. lia.
  - intros j mp Hj Hr. apply (rep_ext _ _ _ _ _ _ _ Hr). intros q Hq. unfold f.
    destruct (bright_dec m im x y w h t q) as [B|]; [|reflexivity]. unfold bright in B.
    destruct (Z.ltb_spec (snd q) (y + j)), (Z.eqb_spec (snd q) (y + j)), (Z.ltb_spec (fst q) (x + w)),
      (Z.ltb_spec (snd q) (y + (j + 1))), (Z.eqb_spec (snd q) (y + (j + 1))), (Z.ltb_spec (fst q) (x + 0)); cbn; try reflexivity; lia.
  - exists mp, (f h 0). split; [exact He|]. split; [exact Hp|]. intros p Hpf. unfold f.
    destruct (bright_dec m im x y w h t p) as [B|B]; [left|right; auto]. split; auto.
    unfold bright in B. destruct (Z.ltb_spec (snd p) (y + h)); [reflexivity|lia].
Qed.

(** ** The whole search *)
Theorem find_blobs m im x y w h t : area m im x y w h -> icc im = 1 -> (w + 2) * (h + 1) < W32 ->
  exists mp mp' l, mark m im x y w h t (new_map w h) = Ok mp /\ collect w h x y mp = Ok (mp', l) /\
    (forall b, In b l -> exists seed, component (bright m im x y w h t) seed b) /\
    NoDup (concat (map bpoints l)) /\
    (forall p, In p (concat (map bpoints l)) <-> bright m im x y w h t p).
Proof.
  intros A C Hsz. destruct (mark_ok m im x y w h t A C Hsz) as (mp & f & Hm & Hr & Hv).
  destruct A as (W & R). pose proof (wf_bounds _ _ W) as (B1 & B2 & B3 & B4). destruct R as [R1 R2 R3 R4 R5 R6].
  destruct (collect_ok w h x y R3 R4 Hsz R1 ltac:(lia) R2 ltac:(lia) (bright m im x y w h t)) with (mp := mp) (f := f)
    as (mp' & l & Hc & H1 & H2 & H3); auto.
  - intros p Hp. unfold bright, roi in *. tauto.
  - exists mp, mp', l. auto.
Qed.
