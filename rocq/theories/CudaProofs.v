(** Proofs about Cuda.v: grids, and the memory left by a grid under every interleaving. *)
From Coq Require Import ZArith List Bool Lia Permutation.
From Verif Require Import Base Image Spec BaseProofs ImgFun ImgLemmas ImgProofs SafeProofs FuncPoolProofs Cuda.
Import ListNotations.
Open Scope Z_scope.

Ltac Zify.zify_post_hook ::= idtac.

(** ** What a thread writes, when its loads see the memory [g] *)

Definition event : Type := (ptr * (Z -> Z))%type.

Fixpoint events (g : ptr -> Z) (t : prog) : list event :=
  match t with
  | PDone => []
  | PLoad p k => events g (k (g p))
  | PStore p v k => (p, fun _ => v) :: events g k
  | PAtomic p f k => (p, f) :: events g k
  end.

(** Every access is inside memory and no load is from a cell of [D]; cells written by the
    thread itself join [D]. *)
Fixpoint sound (m : mem) (g : ptr -> Z) (D : ptr -> Prop) (t : prog) : Prop :=
  match t with
  | PDone => True
  | PLoad p k => inb m p = true /\ ~ D p /\ sound m g D (k (g p))
  | PStore p _ k => inb m p = true /\ sound m g (fun q => D q \/ q = p) k
  | PAtomic p _ k => inb m p = true /\ sound m g (fun q => D q \/ q = p) k
  end.

Lemma sound_weak m g t : forall D D' : ptr -> Prop, (forall q, D' q -> D q) -> sound m g D t -> sound m g D' t.
Proof.
  induction t as [|p k IH|p v k IH|p f k IH]; intros D D' HD H; cbn [sound] in *; auto.
  - destruct H as (H1 & H2 & H3). split; [exact H1|]. split; [intros HH; apply H2, HD, HH|]. eapply IH; eauto.
  - destruct H as (H1 & H2). split; [exact H1|]. eapply IH; [|exact H2]. intros q [Hq|Hq]; auto.
  - destruct H as (H1 & H2). split; [exact H1|]. eapply IH; [|exact H2]. intros q [Hq|Hq]; auto.
Qed.

(** Number of steps of the thread. *)
Fixpoint psize (g : ptr -> Z) (t : prog) : nat :=
  match t with
  | PDone => 0%nat
  | PLoad p k => S (psize g (k (g p)))
  | PStore _ _ k => S (psize g k)
  | PAtomic _ _ k => S (psize g k)
  end.

Definition apply1 (m : mem) (e : event) : mem := upd m (fst e) (snd e (get m (fst e))).
Definition apply_all (m : mem) (es : list event) : mem := fold_left apply1 es m.

Lemma apply_all_app m es es' : apply_all m (es ++ es') = apply_all (apply_all m es) es'.
Proof. apply fold_left_app. Qed.

Lemma apply_all_len es : forall m, same_len m (apply_all m es).
Proof.
  induction es as [|e es IH]; intros m; cbn [apply_all fold_left]; [apply same_len_refl|].
  eapply same_len_trans; [|apply IH]. intros b. unfold apply1. apply len_upd.
Qed.

(** The value of one cell depends only on the events of that cell. *)
Definition at_cell (q : ptr) (e : event) : bool := ptr_eqb q (fst e).
Lemma apply_all_get q es : forall m,
  get (apply_all m es) q = fold_left (fun v (e : event) => snd e v) (filter (at_cell q) es) (get m q).
Proof.
  induction es as [|e es IH]; intros m; cbn [apply_all fold_left filter]; [reflexivity|].
  fold (apply_all (apply1 m e) es). rewrite IH. unfold apply1, at_cell at 2. rewrite get_upd.
  destruct (ptr_eqb_spec q (fst e)) as [->|Hn]; reflexivity.
Qed.

Lemma apply_all_untouched q es m : (forall e, In e es -> fst e <> q) -> get (apply_all m es) q = get m q.
Proof.
  intros H. rewrite apply_all_get. replace (filter (at_cell q) es) with (@nil event); [reflexivity|].
  symmetry. induction es as [|e es IH]; auto. cbn [filter]. unfold at_cell at 1.
  destruct (ptr_eqb_spec q (fst e)) as [->|Hn].
  - exfalso. apply (H e); [left|]; reflexivity.
  - apply IH. intros e' He'. apply H. right. exact He'.
Qed.

(** ** Interleavings *)

Section Linear.
Variable m0 : mem.
Let g : ptr -> Z := get m0.

Definition writes_of (t : prog) (q : ptr) : Prop := In q (map fst (events g t)).

(** Cells that may differ from [m0] when thread [i] loads: those already written and those the
    others have yet to write. *)
Definition dirty (done : list event) (ts : list prog) (i : nat) (q : ptr) : Prop :=
  In q (map fst done) \/ exists j t, j <> i /\ nth_error ts j = Some t /\ writes_of t q.

Definition linv (total : list event) (done : list event) (m : mem) (ts : list prog) : Prop :=
  m = apply_all m0 done /\
  Permutation (done ++ flat_map (events g) ts) total /\
  forall i t, nth_error ts i = Some t -> sound m0 g (dirty done ts i) t.

Lemma pstep_nth_none ts : forall m i, nth_error ts i = None -> pstep_nth m ts i = Ok (m, ts).
Proof.
  induction ts as [|t ts IH]; intros m [|i] H; cbn in *; auto; try discriminate.
  rewrite IH by assumption. reflexivity.
Qed.

Fixpoint set_nth (ts : list prog) (i : nat) (t : prog) : list prog :=
  match ts, i with
  | [], _ => []
  | _ :: ts', O => t :: ts'
  | u :: ts', S k => u :: set_nth ts' k t
  end.

Lemma pstep_nth_some ts : forall m i t m' t', nth_error ts i = Some t -> pstep m t = Ok (m', t') ->
  pstep_nth m ts i = Ok (m', set_nth ts i t').
Proof.
  induction ts as [|u ts IH]; intros m [|i] t m' t' H Hs; cbn in *; try discriminate.
  - injection H as ->. rewrite Hs. reflexivity.
  - rewrite (IH m i t m' t') by assumption. reflexivity.
Qed.

Lemma set_nth_same ts : forall i t u, nth_error ts i = Some u -> nth_error (set_nth ts i t) i = Some t.
Proof. induction ts as [|v ts IH]; intros [|i] t u H; cbn in *; try discriminate; eauto. Qed.
Lemma set_nth_other ts : forall i j t, j <> i -> nth_error (set_nth ts i t) j = nth_error ts j.
Proof. induction ts as [|v ts IH]; intros [|i] [|j] t H; cbn; auto; try congruence. Qed.
Lemma set_nth_length ts : forall i t, length (set_nth ts i t) = length ts.
Proof. induction ts as [|v ts IH]; intros [|i] t; cbn; auto. Qed.

Lemma flat_set_nth ts : forall i t t' e, nth_error ts i = Some t -> events g t = e ++ events g t' ->
  Permutation (flat_map (events g) ts) (e ++ flat_map (events g) (set_nth ts i t')).
Proof.
  induction ts as [|u ts IH]; intros [|i] t t' e H He; cbn in *; try discriminate.
  - injection H as ->. rewrite He, <- app_assoc. reflexivity.
  - rewrite (IH i t t' e) by assumption. rewrite !app_assoc. apply Permutation_app_tail. apply Permutation_app_comm.
Qed.

(** A step that produces the events [e] (none or one). *)
Lemma linv_step total done m ts i t m' t' e :
  linv total done m ts -> nth_error ts i = Some t -> events g t = e ++ events g t' ->
  m' = apply_all m e -> sound m0 g (fun q => dirty done ts i q \/ In q (map fst e)) t' ->
  linv total (done ++ e) m' (set_nth ts i t').
Proof.
  intros (Hm & HP & Hs) Ht He Hm' Hsound. split; [|split].
  - rewrite apply_all_app, <- Hm. exact Hm'.
  - rewrite <- HP. rewrite (flat_set_nth ts i t t' e Ht He). rewrite !app_assoc. reflexivity.
  - intros j u Hu. destruct (Nat.eq_dec j i) as [->|Hne].
    + rewrite (set_nth_same _ _ _ _ Ht) in Hu. injection Hu as <-.
      eapply sound_weak; [|exact Hsound]. intros q [Hq|(k & v & Hk & Hv & Hq)].
      * rewrite map_app in Hq. apply in_app_or in Hq as [Hq|Hq]; [left; left|right]; assumption.
      * left. right. exists k, v. rewrite set_nth_other in Hv by assumption. auto.
    + rewrite set_nth_other in Hu by assumption. eapply sound_weak; [|apply (Hs j u Hu)].
      intros q [Hq|(k & v & Hk & Hv & Hq)].
      * rewrite map_app in Hq. apply in_app_or in Hq as [Hq|Hq]; [left; assumption|].
        right. exists i, t. split; [congruence|]. split; [assumption|].
        unfold writes_of. rewrite He, map_app. apply in_or_app. left. exact Hq.
      * right. destruct (Nat.eq_dec k i) as [->|Hki].
        -- rewrite (set_nth_same _ _ _ _ Ht) in Hv. injection Hv as <-.
           exists i, t. split; [congruence|]. split; [assumption|].
           unfold writes_of in *. rewrite He, map_app. apply in_or_app. right. exact Hq.
        -- rewrite set_nth_other in Hv by assumption. exists k, v. auto.
Qed.

Lemma linv_pstep total done m ts i :
  linv total done m ts ->
  exists m' ts' done', pstep_nth m ts i = Ok (m', ts') /\ linv total done' m' ts' /\
    length ts' = length ts /\
    (forall j t, nth_error ts j = Some t -> exists t', nth_error ts' j = Some t' /\
       (psize g t' <= psize g t - (if Nat.eqb j i then 1 else 0))%nat).
Proof.
  intros H. pose proof H as (Hm & HP & Hs).
  assert (Hl : same_len m0 m) by (rewrite Hm; apply apply_all_len).
  destruct (nth_error ts i) as [t|] eqn:Ht.
  2:{ exists m, ts, done. split; [apply pstep_nth_none; assumption|]. split; [exact H|]. split; [reflexivity|].
      intros j t Hj. exists t. split; [exact Hj|]. destruct (Nat.eqb_spec j i); [congruence|lia]. }
  specialize (Hs i t Ht).
  assert (K : forall m' t' e, pstep m t = Ok (m', t') -> events g t = e ++ events g t' -> m' = apply_all m e ->
    sound m0 g (fun q => dirty done ts i q \/ In q (map fst e)) t' -> (psize g t' <= psize g t - 1)%nat ->
    exists m' ts' done', pstep_nth m ts i = Ok (m', ts') /\ linv total done' m' ts' /\
      length ts' = length ts /\
      (forall j t, nth_error ts j = Some t -> exists t', nth_error ts' j = Some t' /\
         (psize g t' <= psize g t - (if Nat.eqb j i then 1 else 0))%nat)).
  { intros m' t' e Hst He Hm' Hsound Hsz. exists m', (set_nth ts i t'), (done ++ e).
    split; [eapply pstep_nth_some; eauto|]. split; [eapply linv_step; eauto|]. split; [apply set_nth_length|].
    intros j u Hu. destruct (Nat.eqb_spec j i) as [->|Hne].
    - exists t'. split; [eapply set_nth_same; eauto|]. congruence.
    - exists u. rewrite set_nth_other by assumption. split; [assumption|lia]. }
  destruct t as [|p k|p v k|p f k]; cbn [sound pstep] in *.
  - apply (K m PDone []); auto.
  - destruct Hs as (Hi & Hd & Hk).
    assert (Eg : get m p = g p).
    { rewrite Hm. unfold g. apply apply_all_untouched. intros e He E. apply Hd. left. rewrite <- E. apply in_map, He. }
    apply (K m (k (g p)) []); auto.
    + rewrite load_ok by (rewrite (same_len_inb m0) by assumption; assumption). cbn [bind]. rewrite Eg. reflexivity.
    + eapply sound_weak; [|exact Hk]. intros q [Hq|[]]. exact Hq.
    + cbn [psize]. lia.
  - destruct Hs as (Hi & Hk). apply (K (upd m p v) k [(p, fun _ => v)]); auto.
    + rewrite store_ok by (rewrite (same_len_inb m0) by assumption; assumption). reflexivity.
    + eapply sound_weak; [|exact Hk]. cbn [map fst In]. intros q [Hq|[Hq|[]]]; auto.
    + cbn [psize]. lia.
  - destruct Hs as (Hi & Hk). apply (K (upd m p (f (get m p))) k [(p, f)]); auto.
    + rewrite load_ok by (rewrite (same_len_inb m0) by assumption; assumption). cbn [bind].
      rewrite store_ok by (rewrite (same_len_inb m0) by assumption; assumption). reflexivity.
    + eapply sound_weak; [|exact Hk]. cbn [map fst In]. intros q [Hq|[Hq|[]]]; auto.
    + cbn [psize]. lia.
Qed.

Lemma linv_prun total sched : forall done m ts, linv total done m ts ->
  exists m' ts' done', prun sched m ts = Ok (m', ts') /\ linv total done' m' ts' /\
    length ts' = length ts /\
    (forall j t, nth_error ts j = Some t -> exists t', nth_error ts' j = Some t' /\
       (psize g t' <= psize g t - count_occ Nat.eq_dec sched j)%nat).
Proof.
  induction sched as [|i s IH]; intros done m ts H; cbn [prun].
  - exists m, ts, done. split; [reflexivity|]. split; [exact H|]. split; [reflexivity|].
    intros j t Hj. exists t. split; [exact Hj|]. cbn [count_occ]. lia.
  - destruct (linv_pstep total done m ts i H) as (m1 & ts1 & d1 & -> & H1 & L1 & Z1). cbn [bind].
    destruct (IH d1 m1 ts1 H1) as (m2 & ts2 & d2 & E2 & H2 & L2 & Z2).
    exists m2, ts2, d2. split; [exact E2|]. split; [exact H2|]. split; [congruence|].
    intros j t Hj. destruct (Z1 j t Hj) as (t1 & Hj1 & S1). destruct (Z2 j t1 Hj1) as (t2 & Hj2 & S2).
    exists t2. split; [exact Hj2|]. destruct (Nat.eqb_spec j i) as [->|Hne].
    + rewrite count_occ_cons_eq by reflexivity. lia.
    + rewrite count_occ_cons_neq by congruence. lia.
Qed.

Lemma psize_done t : psize g t = 0%nat -> pdone t = true.
Proof. destruct t; cbn; auto; discriminate. Qed.

Lemma all_done_events ts : forallb pdone ts = true -> flat_map (events g) ts = [].
Proof.
  induction ts as [|t ts IH]; cbn [forallb flat_map]; auto. rewrite andb_true_iff. intros [H1 H2].
  destruct t; try discriminate. cbn [events app]. auto.
Qed.

(** No two threads touch a cell one of them writes, except that they may both write it. *)
Definition separate (ts : list prog) : Prop :=
  forall i t, nth_error ts i = Some t ->
    sound m0 g (fun q => exists j u, j <> i /\ nth_error ts j = Some u /\ writes_of u q) t.

Lemma separate_linv ts : separate ts -> linv (flat_map (events g) ts) [] m0 ts.
Proof.
  intros H. split; [reflexivity|]. split; [reflexivity|]. intros i t Hi.
  eapply sound_weak; [|apply (H i t Hi)]. intros q [[]|Hq]. exact Hq.
Qed.

(** Under every schedule the grid performs exactly the writes of its threads, in some order. *)
Theorem run_grid_linear ts : separate ts ->
  every_schedule (length ts) (fun s => run_grid s m0 ts)
    (fun M => exists es, Permutation es (flat_map (events g) ts) /\ M = apply_all m0 es).
Proof.
  intros H. pose proof (separate_linv ts H) as Hi. split.
  - intros sched. unfold run_grid.
    destruct (linv_prun _ sched _ _ _ Hi) as (m' & ts' & d' & -> & (Hm & HP & _) & _ & _).
    destruct (forallb pdone ts') eqn:E; [right|left; reflexivity].
    exists m'. split; [reflexivity|]. exists d'. split; [|exact Hm].
    rewrite <- HP, all_done_events by assumption. rewrite app_nil_r. reflexivity.
  - destruct (length_le_nth ts (psize g)) as [K HK]. exists K. intros sched Hs. unfold run_grid.
    destruct (linv_prun _ sched _ _ _ Hi) as (m' & ts' & d' & -> & _ & L & Z).
    replace (forallb pdone ts') with true; [discriminate|]. symmetry. apply forallb_forall. intros t' Ht'.
    apply In_nth_error in Ht' as (j & Hj).
    assert (Hlt : (j < length ts)%nat) by (rewrite <- L; apply nth_error_Some; congruence).
    destruct (nth_error ts j) as [t|] eqn:Et; [|apply nth_error_None in Et; lia].
    destruct (Z j t Et) as (u & Hu & Hsz). rewrite Hj in Hu. injection Hu as <-.
    apply psize_done. specialize (HK j t Et). specialize (Hs j Hlt). lia.
Qed.

(** When nobody waits: some of the writes have been made. *)
Lemma peek_grid_linear ts sched : separate ts ->
  exists es rest, Permutation (es ++ rest) (flat_map (events g) ts) /\
    peek_grid sched m0 ts = Ok (apply_all m0 es).
Proof.
  intros H. pose proof (separate_linv ts H) as Hi. unfold peek_grid.
  destruct (linv_prun _ sched _ _ _ Hi) as (m' & ts' & d' & -> & (Hm & HP & _) & _ & _).
  exists d', (flat_map (events g) ts'). split; [exact HP|]. rewrite Hm. reflexivity.
Qed.
End Linear.

(** ** Grids *)

Lemma zrange_In n k : In k (zrange n) <-> 0 <= k < n.
Proof.
  unfold zrange. rewrite in_map_iff. split.
  - intros (i & <- & Hi). apply in_seq in Hi. lia.
  - intros H. exists (Z.to_nat k). split; [lia|]. apply in_seq. lia.
Qed.
Lemma NoDup_map_inj {A B} (f : A -> B) l : (forall a b, In a l -> In b l -> f a = f b -> a = b) -> NoDup l -> NoDup (map f l).
Proof.
  induction l as [|a l IH]; intros Hf Hn; cbn [map]; [constructor|]. inversion Hn as [|? ? Ha Hl]; subst. constructor.
  - rewrite in_map_iff. intros (b & E & Hb). apply Ha. rewrite <- (Hf b a); cbn; auto.
  - apply IH; auto. intros; apply Hf; cbn; auto.
Qed.
Lemma zrange_NoDup n : NoDup (zrange n).
Proof. unfold zrange. apply NoDup_map_inj; [intros; lia|apply seq_NoDup]. Qed.

Lemma NoDup_app_disj {A} (l l' : list A) : NoDup l -> NoDup l' -> (forall a, In a l -> ~ In a l') -> NoDup (l ++ l').
Proof.
  induction l as [|a l IH]; intros Hl Hl' Hd; cbn [app]; auto. inversion Hl; subst. constructor.
  - rewrite in_app_iff. intros [H|H]; [auto|]. apply (Hd a); cbn; auto.
  - apply IH; auto. intros b Hb. apply Hd. cbn; auto.
Qed.
Lemma NoDup_flat_map {A B} (f : A -> list B) l : NoDup l -> (forall a, In a l -> NoDup (f a)) ->
  (forall a b c, In a l -> In b l -> In c (f a) -> In c (f b) -> a = b) -> NoDup (flat_map f l).
Proof.
  induction l as [|a l IH]; intros Hn Hf Hd; cbn [flat_map]; [constructor|]. inversion Hn as [|? ? Ha Hl]; subst.
  apply NoDup_app_disj.
  - apply Hf. cbn; auto.
  - apply IH; auto. { intros; apply Hf; cbn; auto. } intros x y c Hx Hy. apply Hd; cbn; auto.
  - intros c Hc Hc'. apply in_flat_map in Hc' as (b & Hb & Hcb). apply Ha.
    rewrite (Hd a b c); cbn; auto.
Qed.

Lemma axis_In nb nt k : 0 <= nb -> 0 < nt -> nb * nt <= W32 -> In k (axis nb nt) <-> 0 <= k < nb * nt.
Proof.
  intros Hb Ht Hw. unfold axis. rewrite in_flat_map. split.
  - intros (b & Hb' & Hk). apply zrange_In in Hb'. apply in_map_iff in Hk as (t & <- & Ht').
    apply zrange_In in Ht'. assert (0 <= nt * b /\ nt * b + t < nb * nt) by nia.
    rewrite !u32_small by (rewrite ?u32_small; lia). lia.
  - intros Hk. exists (k / nt). pose proof (Z.div_mod k nt ltac:(lia)). pose proof (Z.mod_pos_bound k nt Ht).
    assert (0 <= k / nt < nb) by (split; [apply Z.div_pos; lia|apply Z.div_lt_upper_bound; lia]).
    split; [apply zrange_In; assumption|]. apply in_map_iff. exists (k mod nt). split.
    + rewrite !u32_small by (rewrite ?u32_small; nia). lia.
    + apply zrange_In. assumption.
Qed.
Lemma axis_NoDup nb nt : 0 <= nb -> 0 < nt -> nb * nt <= W32 -> NoDup (axis nb nt).
Proof.
  intros Hb Ht Hw. unfold axis. apply NoDup_flat_map; [apply zrange_NoDup| |].
  - intros b Hb'. apply zrange_In in Hb'. apply NoDup_map_inj; [|apply zrange_NoDup].
    intros t t' Ht1 Ht2. apply zrange_In in Ht1, Ht2. rewrite !u32_small by (rewrite ?u32_small; nia). lia.
  - intros b b' c Hb1 Hb2 Hc1 Hc2. apply zrange_In in Hb1, Hb2.
    apply in_map_iff in Hc1 as (t & <- & Ht1). apply in_map_iff in Hc2 as (t' & E & Ht2). apply zrange_In in Ht1, Ht2.
    rewrite !u32_small in E by (rewrite ?u32_small; nia). nia.
Qed.

Lemma NoDup_list_prod {A B} (l : list A) (l' : list B) : NoDup l -> NoDup l' -> NoDup (list_prod l l').
Proof.
  intros Hl Hl'. induction l as [|a l IH]; cbn [list_prod]; [constructor|]. inversion Hl; subst.
  apply NoDup_app_disj.
  - apply NoDup_map_inj; [congruence|assumption].
  - auto.
  - intros [x y] H H'. apply in_map_iff in H as (z & E & _). injection E as <- <-.
    apply in_prod_iff in H' as [H' _]. auto.
Qed.

(** The threads (x, y) with x < w and y < h, each once. *)
Definition pairs (w h : Z) : list (Z * Z) := list_prod (zrange w) (zrange h).
Lemma pairs_NoDup w h : NoDup (pairs w h).
Proof. apply NoDup_list_prod; apply zrange_NoDup. Qed.
Lemma pairs_In w h x y : In (x, y) (pairs w h) <-> 0 <= x < w /\ 0 <= y < h.
Proof. unfold pairs. rewrite in_prod_iff, !zrange_In. tauto. Qed.

Definition inr (w h : Z) (c : Z * Z) : bool := (fst c <? w) && (snd c <? h).

(** A grid that covers w x h and stays inside uint32_t. *)
Definition covers (g : grid) (w h : Z) : Prop :=
  0 <= dx (gBlocks g) /\ 0 < dx (gThreads g) /\ dx (gBlocks g) * dx (gThreads g) <= W32 /\
  w <= dx (gBlocks g) * dx (gThreads g) /\
  0 <= dy (gBlocks g) /\ 0 < dy (gThreads g) /\ dy (gBlocks g) * dy (gThreads g) <= W32 /\
  h <= dy (gBlocks g) * dy (gThreads g).

Lemma coords_pairs g w h : covers g w h -> Permutation (filter (inr w h) (coords g)) (pairs w h).
Proof.
  intros (Bx & Tx & Wx & Cx & By & Ty & Wy & Cy). apply NoDup_Permutation.
  - apply NoDup_filter. unfold coords. apply NoDup_list_prod; apply axis_NoDup; assumption.
  - apply pairs_NoDup.
  - intros [x y]. rewrite filter_In, pairs_In. unfold coords. rewrite in_prod_iff, !axis_In by assumption.
    unfold inr. cbn [fst snd]. rewrite andb_true_iff, !Z.ltb_lt. lia.
Qed.

(** *** The side of the square of threads *)
Lemma side_spec n : forall k total, 1 <= total < 1073741824 -> (n + k = 15)%nat ->
  (k = 0%nat \/ 4 ^ Z.of_nat k <= total) ->
  exists c, (forall E : Type, @side_loop E (S n) 2 total (2 ^ Z.of_nat k, 4 * 4 ^ Z.of_nat k) = Ok (c, 4 * (c * c))) /\
    1 <= c /\ (c = 1 \/ c * c <= total).
Proof.
  induction n as [|n IH]; intros k total Ht Hn Hc.
  - assert (k = 15)%nat by lia. subst k. destruct Hc as [Hc|Hc]; [lia|]. change (4 ^ Z.of_nat 15) with 1073741824 in Hc. lia.
  - destruct (Z_le_gt_dec (4 * 4 ^ Z.of_nat k) total) as [Hle|Hgt].
    + assert (E2 : 2 ^ Z.of_nat (S k) = 2 * 2 ^ Z.of_nat k) by (rewrite Nat2Z.inj_succ, Z.pow_succ_r by lia; reflexivity).
      assert (E4 : 4 ^ Z.of_nat (S k) = 4 * 4 ^ Z.of_nat k) by (rewrite Nat2Z.inj_succ, Z.pow_succ_r by lia; reflexivity).
      assert (P2 : 0 < 2 ^ Z.of_nat k) by (apply Z.pow_pos_nonneg; lia).
      assert (P4 : 2 ^ Z.of_nat k <= 4 ^ Z.of_nat k) by (apply Z.pow_le_mono_l; lia).
      destruct (IH (S k) total) as (c & Hl & H1 & H2); [assumption|lia|right; lia|].
      exists c. split; [|split; assumption]. intros E. specialize (Hl E). rewrite <- Hl.
      unfold side_loop. cbn [loop fst snd]. destruct (Z.leb_spec (4 * 4 ^ Z.of_nat k) total); [|lia].
      cbn [bind]. rewrite Z.shiftl_mul_pow2, Z.shiftl_mul_pow2 by lia. change (2 ^ 1) with 2. change (2 ^ 2) with 4.
      pose proof W32_val as HW. rewrite !u32_small by lia.
      replace (2 ^ Z.of_nat k * 2) with (2 ^ Z.of_nat (S k)) by lia.
      replace (4 * 4 ^ Z.of_nat k * 4) with (4 * 4 ^ Z.of_nat (S k)) by lia. reflexivity.
    + exists (2 ^ Z.of_nat k). assert (E4 : 4 ^ Z.of_nat k = 2 ^ Z.of_nat k * 2 ^ Z.of_nat k).
      { change 4 with (2 * 2). rewrite Z.pow_mul_l. reflexivity. }
      split; [|split].
      * intros E. unfold side_loop. cbn [loop fst snd]. destruct (Z.leb_spec (4 * 4 ^ Z.of_nat k) total); [lia|].
        rewrite E4. reflexivity.
      * assert (0 < 2 ^ Z.of_nat k) by (apply Z.pow_pos_nonneg; lia). lia.
      * rewrite <- E4. destruct Hc as [->|Hc]; [left; reflexivity|right; exact Hc].
Qed.

Lemma loop_more {E S} (cond : S -> bool) (body : S -> res E S) n : forall k s r,
  loop n cond body s = Ok r -> loop (n + k) cond body s = Ok r.
Proof.
  induction n as [|n IH]; intros k s r; cbn [loop Nat.add]; [discriminate|].
  destruct (cond s); auto. intros H. apply bind_ok_inv in H as (s' & E1 & H).
  rewrite E1. cbn [bind]. apply IH, H.
Qed.

Lemma get2D_ok total : 1 <= total < 1073741824 ->
  exists c, (forall E : Type, @get2DThreadsPerBlock E side_fuel total = Ok (mkDim3 (total / c) c 1)) /\
    1 <= c <= total /\ (c = 1 \/ c * c <= total).
Proof.
  intros Ht. destruct (side_spec 15 0 total) as (c & E1 & H1 & H2); try lia; auto.
  exists c. split; [|split; [nia|exact H2]]. intros E. unfold get2DThreadsPerBlock.
  assert (E2 : @side_loop E side_fuel 2 total (1, 4) = Ok (c, 4 * (c * c))).
  { specialize (E1 E). unfold side_loop in *. change side_fuel with (16 + 48)%nat. apply loop_more. exact E1. }
  rewrite E2. cbn [bind]. destruct (Z.eqb_spec c 0); [lia|]. reflexivity.
Qed.

Definition dim_pos (a : dim3) : Prop := 1 <= dx a /\ 1 <= dy a /\ 1 <= dz a.

Lemma adjust2D_ok total lim c : 1 <= total -> dim_pos lim -> 1 <= c <= total ->
  exists t, (forall E : Type, @adjust2DThreadsPerBlock E total lim (mkDim3 (total / c) c 1) = Ok t) /\
    1 <= dx t <= dx lim /\ 1 <= dy t <= dy lim /\ dz t = 1 /\ dx t * dy t <= total.
Proof.
  intros Ht (Lx & Ly & Lz) Hc.
  assert (Hu : exists a b, (forall E : Type,
            (if dy lim <? c then if dy lim =? 0 then UB else Ok (mkDim3 (total / dy lim) (dy lim) 1)
            else Ok (mkDim3 (total / c) c 1)) = @Ok E _ (mkDim3 a b 1)) /\ 1 <= a <= total /\ 1 <= b <= dy lim /\ a * b <= total).
  { destruct (Z.ltb_spec (dy lim) c).
    - destruct (Z.eqb_spec (dy lim) 0); [lia|]. exists (total / dy lim), (dy lim). split; [reflexivity|].
      assert (1 <= total / dy lim) by (apply Z.div_le_lower_bound; lia).
      pose proof (Z.mul_div_le total (dy lim) ltac:(lia)). nia.
    - exists (total / c), c. split; [reflexivity|].
      assert (1 <= total / c) by (apply Z.div_le_lower_bound; lia).
      pose proof (Z.mul_div_le total c ltac:(lia)). nia. }
  destruct Hu as (a & b & HE & Ha & Hb & Hab).
  destruct (Z.ltb_spec (dx lim) a) as [H|H].
  - exists (mkDim3 (dx lim) (if total / dx lim <=? dy lim then total / dx lim else b) 1). split.
    { intros E. unfold adjust2DThreadsPerBlock. cbn [dx dy dz]. rewrite HE. cbn [bind dx dy dz].
      destruct (Z.ltb_spec (dx lim) a); [|lia]. destruct (Z.eqb_spec (dx lim) 0); [lia|]. reflexivity. }
    cbn [dx dy dz]. assert (1 <= total / dx lim) by (apply Z.div_le_lower_bound; lia).
    pose proof (Z.mul_div_le total (dx lim) ltac:(lia)).
    destruct (Z.leb_spec (total / dx lim) (dy lim)); nia.
  - exists (mkDim3 a b 1). split; [|cbn [dx dy dz]; lia].
    intros E. unfold adjust2DThreadsPerBlock. cbn [dx dy dz]. rewrite HE. cbn [bind dx dy dz].
    destruct (Z.ltb_spec (dx lim) a); [lia|]. reflexivity.
Qed.

(** The number of blocks: enough, or zero when the sum wraps. *)
Lemma blocks_ok size t lim : 0 <= size < W32 -> 1 <= t -> 1 <= lim -> size <= u32 (t * lim) ->
  exists b, (forall E : Type, @blocks E size t = Ok b) /\ 0 <= b <= lim /\ b * t <= W32 /\ (1 <= b -> size <= b * t) /\
    (size + t - 1 < W32 -> b = (size + t - 1) / t).
Proof.
  intros Hs Ht Hl Hle. exists (u32 (size + t - 1) / t). split.
  { intros E. unfold blocks. destruct (Z.eqb_spec t 0); [lia|]. reflexivity. }
  pose proof (u32_range (size + t - 1)) as R.
  assert (Hmod : u32 (t * lim) <= t * lim) by (unfold u32; apply Z.mod_le; [nia|unfold W32; lia]).
  destruct (Z_lt_le_dec (size + t - 1) W32) as [H|H].
  - rewrite u32_small by lia. pose proof (Z.div_mod (size + t - 1) t ltac:(lia)).
    pose proof (Z.mod_pos_bound (size + t - 1) t ltac:(lia)).
    assert (0 <= (size + t - 1) / t) by (apply Z.div_pos; lia).
    assert (Hq : (size + t - 1) / t < lim + 1) by (apply Z.div_lt_upper_bound; nia).
    set (q := (size + t - 1) / t) in *. clearbody q.
    split; [lia|]. assert (q * t <= size + t - 1) by nia. split.
    + destruct (Z_le_gt_dec (q * t) W32) as [|Hg]; [assumption|]. lia.
    + split; [nia|reflexivity].
  - assert (Eu : u32 (size + t - 1) < t).
    { destruct (Z_lt_le_dec t W32) as [Ht'|Ht'].
      - unfold u32. rewrite <- (Z.mod_unique (size + t - 1) W32 1 (size + t - 1 - W32)) by lia. lia.
      - lia. }
    replace (u32 (size + t - 1) / t) with 0.
    + split; [lia|]. split; [unfold W32; lia|lia].
    + symmetry. apply Z.div_small. lia.
Qed.

(** What every device reports: positive limits, fewer than 2^30 threads per block. *)
Record device_ok (d : device) : Prop := mkDeviceOk {
  dev_threads : 1 <= dThreads d < 1073741824;
  dev_max : dThreads d <= dMax d;
  dev_block : dim_pos (dBlock d);
  dev_grid : dim_pos (dGrid d)
}.

Definition grid_ok2 (d : device) (g : grid) (w h : Z) : Prop :=
    dz (gBlocks g) = 1 /\ dz (gThreads g) = 1 /\
    1 <= dx (gThreads g) <= dx (dBlock d) /\ 1 <= dy (gThreads g) <= dy (dBlock d) /\
    dx (gThreads g) * dy (gThreads g) <= dThreads d /\
    0 <= dx (gBlocks g) <= dx (dGrid d) /\ 0 <= dy (gBlocks g) <= dy (dGrid d) /\
    dx (gBlocks g) * dx (gThreads g) <= W32 /\ dy (gBlocks g) * dy (gThreads g) <= W32 /\
    (1 <= dx (gBlocks g) -> w <= dx (gBlocks g) * dx (gThreads g)) /\
    (1 <= dy (gBlocks g) -> h <= dy (gBlocks g) * dy (gThreads g)).

(** [size] threads in one direction: the grid has room for them whatever the shape of the
    block, and no uint32_t sum or product goes wrong (2^31 - 1 is the limit of every device
    for x). *)
Definition roomy (threads lim size : Z) : Prop :=
  size <= lim /\ size + threads <= 2147483648 /\ (threads * lim < W32 \/ lim = 2147483647).
Definition comfortable (d : device) (w h : Z) : Prop :=
  roomy (dThreads d) (dx (dGrid d)) w /\ roomy (dThreads d) (dy (dGrid d)) h.

Lemma roomy_fits n lim size t : roomy n lim size -> 0 <= size -> 1 <= lim -> 1 <= t <= n -> size <= u32 (t * lim).
Proof.
  intros (H1 & H2 & [H3|H3]) Hs Hl Ht.
  - rewrite u32_small by nia. nia.
  - subst lim. pose proof W32_val as HW. unfold u32.
    pose proof (Z.div_mod t 2 ltac:(lia)). pose proof (Z.mod_pos_bound t 2 ltac:(lia)).
    destruct (Z.eq_dec (t mod 2) 0) as [E|E].
    + rewrite <- (Z.mod_unique (t * 2147483647) W32 (t / 2 - 1) (W32 - t)) by lia. lia.
    + rewrite <- (Z.mod_unique (t * 2147483647) W32 (t / 2) (2147483648 - t)) by lia. lia.
Qed.

Lemma grid2_cases d w h : device_ok d -> 0 < w < W32 -> 0 < h < W32 ->
  (~ comfortable d w h /\ forall E (e : E), gridParameters2 e d w h = Throw e) \/
  exists g, (forall E (e : E), gridParameters2 e d w h = Ok g) /\ grid_ok2 d g w h /\
    (comfortable d w h -> 1 <= dx (gBlocks g) /\ 1 <= dy (gBlocks g)).
Proof.
  intros [Ht Hm HB (Gx & Gy & Gz)] Hw Hh.
  destruct (get2D_ok (dThreads d) Ht) as (c & Hg & Hc & _).
  destruct (adjust2D_ok (dThreads d) (dBlock d) c) as (t & Ha & Tx & Ty & Tz & Txy); try lia; auto.
  assert (Lx : dx t <= dThreads d) by nia. assert (Ly : dy t <= dThreads d) by nia.
  destruct (Z_lt_le_dec (u32 (dx t * dx (dGrid d))) w) as [H1|H1];
    [|destruct (Z_lt_le_dec (u32 (dy t * dy (dGrid d))) h) as [H2|H2]].
  1,2: left; split;
    [intros [Rx Ry]; pose proof (roomy_fits _ _ _ (dx t) Rx); pose proof (roomy_fits _ _ _ (dy t) Ry); lia|].
  1,2: intros E e; unfold gridParameters2; rewrite Hg; cbn [bind]; rewrite Ha; cbn [bind].
  - destruct (Z.ltb_spec (u32 (dx t * dx (dGrid d))) w); [reflexivity|lia].
  - destruct (Z.ltb_spec (u32 (dx t * dx (dGrid d))) w); [reflexivity|].
    destruct (Z.ltb_spec (u32 (dy t * dy (dGrid d))) h); [reflexivity|lia].
  - destruct (blocks_ok w (dx t) (dx (dGrid d))) as (bx & Ex & X1 & X2 & X3 & X4); try lia.
    destruct (blocks_ok h (dy t) (dy (dGrid d))) as (by_ & Ey & Y1 & Y2 & Y3 & Y4); try lia.
    right. exists (mkGrid (mkDim3 bx by_ 1) t). split; [|split].
    + intros E e; unfold gridParameters2; rewrite Hg; cbn [bind]; rewrite Ha; cbn [bind].
      destruct (Z.ltb_spec (u32 (dx t * dx (dGrid d))) w); [lia|].
      destruct (Z.ltb_spec (u32 (dy t * dy (dGrid d))) h); [lia|]. cbn [orb negb].
      rewrite Ex. cbn [bind]. rewrite Ey. reflexivity.
    + unfold grid_ok2. cbn [gBlocks gThreads dx dy dz]. intuition lia.
    + cbn [gBlocks dx dy]. pose proof W32_val. intros [(_ & Rx & _) (_ & Ry & _)].
      rewrite X4, Y4 by lia. split; apply Z.div_le_lower_bound; lia.
Qed.

Lemma launchable_iff d g : launchable d g = true <->
  1 <= dx (gBlocks g) <= dx (dGrid d) /\ 1 <= dy (gBlocks g) <= dy (dGrid d) /\ 1 <= dz (gBlocks g) <= dz (dGrid d) /\
  1 <= dx (gThreads g) <= dx (dBlock d) /\ 1 <= dy (gThreads g) <= dy (dBlock d) /\
  1 <= dz (gThreads g) <= dz (dBlock d) /\
  dx (gThreads g) * dy (gThreads g) * dz (gThreads g) <= dMax d.
Proof. unfold launchable. rewrite !andb_true_iff, !Z.leb_le. intuition. Qed.

(** A grid that the driver takes covers the rectangle. *)
Lemma grid2_covers d w h g E (e : E) : device_ok d -> 0 < w < W32 -> 0 < h < W32 ->
  gridParameters2 e d w h = Ok g -> launchable d g = true -> covers g w h.
Proof.
  intros Hd Hw Hh Eg Hl. destruct (grid2_cases d w h Hd Hw Hh) as [[_ H]|(g' & H & Hok & _)].
  - rewrite H in Eg. discriminate.
  - rewrite H in Eg. injection Eg as ->. apply launchable_iff in Hl. unfold grid_ok2, covers in *. intuition lia.
Qed.
Lemma grid2_launchable d w h g : device_ok d -> grid_ok2 d g w h -> 1 <= dx (gBlocks g) -> 1 <= dy (gBlocks g) ->
  launchable d g = true.
Proof.
  intros [Ht Hm (Bx & By & Bz) (Gx & Gy & Gz)] (Z1 & Z2 & Tx & Ty & Txy & Gbx & Gby & _) H1 H2.
  apply launchable_iff. rewrite Z1, Z2. nia.
Qed.

(** *** One dimension *)
Lemma grid1_cases d n : device_ok d -> 0 < n < W32 ->
  (~ roomy (dThreads d) (dx (dGrid d)) n /\ forall E (e : E), gridParameters1 e d n = Throw e) \/
  exists b t, (forall E (e : E), gridParameters1 e d n = Ok (mkGrid (mkDim3 b 1 1) (mkDim3 t 1 1))) /\
    1 <= t <= dx (dBlock d) /\ t <= dThreads d /\ 0 <= b <= dx (dGrid d) /\ b * t <= W32 /\ (1 <= b -> n <= b * t) /\
    (roomy (dThreads d) (dx (dGrid d)) n -> 1 <= b).
Proof.
  intros [Ht Hm (Bx & By & Bz) (Gx & Gy & Gz)] Hn.
  set (t := if dThreads d <=? dx (dBlock d) then dThreads d else dx (dBlock d)).
  assert (Ht' : 1 <= t <= dx (dBlock d) /\ t <= dThreads d) by (unfold t; destruct (Z.leb_spec (dThreads d) (dx (dBlock d))); lia).
  destruct (Z_lt_le_dec (u32 (t * dx (dGrid d))) n) as [H|H].
  - left. split.
    + intros R. pose proof (roomy_fits _ _ _ t R). lia.
    + intros E e. unfold gridParameters1. fold t. destruct (Z.ltb_spec (u32 (t * dx (dGrid d))) n); [reflexivity|lia].
  - right. destruct (blocks_ok n t (dx (dGrid d))) as (b & Eb & X1 & X2 & X3 & X4); try lia.
    exists b, t. split; [|].
    + intros E e. unfold gridParameters1. fold t. destruct (Z.ltb_spec (u32 (t * dx (dGrid d))) n); [lia|].
      cbn [negb]. rewrite Eb. reflexivity.
    + pose proof W32_val. repeat split; try lia. intros (_ & R & _). rewrite X4 by lia. apply Z.div_le_lower_bound; lia.
Qed.

(** ** Runs *)

(** [every_schedule] for any result. *)
Definition every_run {A} (n : nat) (call : list nat -> res mem A) (Q : A -> Prop) : Prop :=
  (forall sched, call sched = Timeout \/ exists a, call sched = Ok a /\ Q a) /\
  (exists K, forall sched, (forall i, (i < n)%nat -> (K <= count_occ Nat.eq_dec sched i)%nat) ->
     call sched <> Timeout).

(** The same lengths and values everywhere. *)
Definition same_mem (m M : mem) : Prop := (forall p, get M p = get m p) /\ (forall b, len M b = len m b).

(** The outcome of a call that launches a grid for w x h threads, over all interleavings: it
    gives [Q], or it is refused whatever the schedule, which does not happen when the device
    has room. *)
Definition device_run {A} (fits : Prop) (m : mem) (call : list nat -> res mem A) (Q : A -> Prop) : Prop :=
  (exists n, every_run n call Q) \/
  (~ fits /\ forall sched, exists M, call sched = Throw M /\ same_mem m M).

Lemma same_mem_refl m : same_mem m m.
Proof. split; reflexivity. Qed.

Lemma every_run_weak {A} n call (Q Q' : A -> Prop) : (forall a, Q a -> Q' a) -> every_run n call Q -> every_run n call Q'.
Proof.
  intros H [H1 H2]. split; [|exact H2]. intros s. destruct (H1 s) as [E|(a & E & HQ)]; eauto.
Qed.
Lemma device_run_weak {A} fits m call (Q Q' : A -> Prop) : (forall a, Q a -> Q' a) ->
  device_run fits m call Q -> device_run fits m call Q'.
Proof. intros H [(n & Hn)|Hr]; [left; exists n; eapply every_run_weak; eauto|right; exact Hr]. Qed.
Lemma device_run_ext {A} fits m call call' (Q : A -> Prop) : (forall s, call' s = call s) ->
  device_run fits m call Q -> device_run fits m call' Q.
Proof.
  intros H [(n & H1 & K & H2)|[H1 H2]].
  - left. exists n. split; [intros s; rewrite H; apply H1|]. exists K. intros s Hs. rewrite H. apply H2, Hs.
  - right. split; [exact H1|]. intros s. rewrite H. apply H2.
Qed.

Lemma flat_map_perm {A B} (f : A -> list B) l l' : Permutation l l' -> Permutation (flat_map f l) (flat_map f l').
Proof.
  induction 1; cbn [flat_map]; auto.
  - apply Permutation_app_head. assumption.
  - rewrite !app_assoc. apply Permutation_app_tail. apply Permutation_app_comm.
  - etransitivity; eauto.
Qed.
Lemma flat_map_filter {A B} (P : A -> bool) (f : A -> list B) l : (forall a, In a l -> P a = false -> f a = []) ->
  flat_map f l = flat_map f (filter P l).
Proof.
  induction l as [|a l IH]; intros H; cbn [flat_map filter]; auto.
  rewrite IH by (intros; apply H; cbn; auto). destruct (P a) eqn:E; cbn [flat_map]; auto.
  rewrite H by (cbn; auto). reflexivity.
Qed.
Lemma flat_map_map {A B C} (g : A -> B) (f : B -> list C) l : flat_map f (map g l) = flat_map (fun a => f (g a)) l.
Proof. induction l; cbn [flat_map map]; congruence. Qed.

(** The threads of [ids], those of [P] doing something: these are the elements of [L]. *)
Lemma separate_ids {A} m (k : A -> prog) (P : A -> bool) ids L :
  NoDup ids -> Permutation (filter P ids) L -> (forall a, In a ids -> P a = false -> k a = PDone) ->
  (forall a, In a L -> sound m (get m)
     (fun q => exists a', In a' L /\ a' <> a /\ In q (map fst (events (get m) (k a')))) (k a)) ->
  separate m (map k ids).
Proof.
  intros Hn HP Hd Hs i t Hi. rewrite nth_error_map in Hi. destruct (nth_error ids i) as [a|] eqn:Ea; [|discriminate].
  injection Hi as <-. destruct (P a) eqn:EP.
  - eapply sound_weak; [|apply (Hs a)].
    + intros q (j & u & Hj & Hu & Hq). rewrite nth_error_map in Hu. destruct (nth_error ids j) as [a'|] eqn:Ea'; [|discriminate].
      injection Hu as <-. exists a'. unfold writes_of in Hq. split; [|split; [|exact Hq]].
      * apply (Permutation_in _ HP). apply filter_In. split; [eapply nth_error_In; eauto|].
        destruct (P a') eqn:E'; auto. rewrite (Hd a') in Hq; [destruct Hq|eapply nth_error_In; eauto|assumption].
      * intros ->. apply Hj. symmetry.
        apply (proj1 (NoDup_nth_error ids) Hn); [apply nth_error_Some; congruence|congruence].
    + apply (Permutation_in _ HP). apply filter_In. split; [eapply nth_error_In; eauto|assumption].
  - rewrite Hd; [exact I|eapply nth_error_In; eauto|assumption].
Qed.
Lemma ids_events {A} m (k : A -> prog) (P : A -> bool) ids L :
  Permutation (filter P ids) L -> (forall a, In a ids -> P a = false -> k a = PDone) ->
  Permutation (flat_map (events (get m)) (map k ids)) (flat_map (fun a => events (get m) (k a)) L).
Proof.
  intros HP Hd. rewrite flat_map_map. rewrite (flat_map_filter P).
  - apply flat_map_perm. exact HP.
  - intros a Ha E. rewrite Hd by assumption. reflexivity.
Qed.

Definition others (w h : Z) (m : mem) (k : Z -> Z -> prog) (x y : Z) (q : ptr) : Prop :=
  exists x' y', 0 <= x' < w /\ 0 <= y' < h /\ (x', y') <> (x, y) /\ In q (map fst (events (get m) (k x' y'))).
Definition all_events (w h : Z) (m : mem) (k : Z -> Z -> prog) : list event :=
  flat_map (fun c => events (get m) (k (fst c) (snd c))) (pairs w h).

Lemma axis_nonneg a b x : In x (axis a b) -> 0 <= x.
Proof.
  unfold axis. rewrite in_flat_map. intros (? & _ & H). apply in_map_iff in H as (t & <- & _). apply u32_range.
Qed.

(** What a 2D launch does. *)
Lemma launch2D_run d w h m k (Q : mem -> Prop) : device_ok d -> 0 < w < W32 -> 0 < h < W32 ->
  (forall x y, 0 <= x -> 0 <= y -> ~ (x < w /\ y < h) -> k x y = PDone) ->
  (forall x y, 0 <= x < w -> 0 <= y < h -> sound m (get m) (others w h m k x y) (k x y)) ->
  (forall es, Permutation es (all_events w h m k) -> Q (apply_all m es)) ->
  device_run (comfortable d w h) m (fun s => launch2D d s m w h k) Q /\
  (dStreams d = false -> device_run (comfortable d w h) m (fun s => launch2D_get d s m w h k) Q).
Proof.
  intros Hd Hw Hh Hout Hs HQ.
  destruct (grid2_cases d w h Hd Hw Hh) as [[Hc H]|(g & H & Hok & Hc)].
  { split; [|intros _]; (right; split; [exact Hc|]; intros s; exists m; unfold launch2D, launch2D_get; rewrite H;
      split; [reflexivity|apply same_mem_refl]). }
  destruct (launchable d g) eqn:Hl.
  2:{ split; [|intros _]; (right; split;
        [intros C; apply Hc in C as [C1 C2]; rewrite (grid2_launchable d w h g) in Hl by assumption; discriminate|];
        intros s; exists m; unfold launch2D, launch2D_get; rewrite H; cbn [bind]; rewrite Hl;
        split; [reflexivity|apply same_mem_refl]). }
  assert (Hcov : covers g w h) by (eapply (grid2_covers d w h g mem m); eauto).
  set (kk := fun c : Z * Z => k (fst c) (snd c)).
  assert (Hd' : forall a, In a (coords g) -> inr w h a = false -> kk a = PDone).
  { intros [x y] Hin Hi. unfold coords in Hin. apply in_prod_iff in Hin as [Hx Hy]. apply axis_nonneg in Hx, Hy.
    unfold kk. cbn [fst snd]. apply Hout; auto. intros [A B]. unfold inr in Hi. cbn [fst snd] in Hi.
    apply Z.ltb_lt in A, B. rewrite A, B in Hi. discriminate. }
  assert (Hn : NoDup (coords g)).
  { destruct Hcov as (? & ? & ? & ? & ? & ? & ? & ?). unfold coords. apply NoDup_list_prod; apply axis_NoDup; assumption. }
  assert (Hsep : separate m (map kk (coords g))).
  { eapply separate_ids; [exact Hn|apply coords_pairs; exact Hcov|exact Hd'|].
    intros [x y] Ha. apply pairs_In in Ha as [Hx Hy]. unfold kk at 2. cbn [fst snd].
    eapply sound_weak; [|apply Hs; assumption]. intros q ([x' y'] & Ha' & Hne & Hq).
    apply pairs_In in Ha' as [Hx' Hy']. exists x', y'. auto. }
  assert (R : every_run (length (map kk (coords g))) (fun s => run_grid s m (map kk (coords g))) Q).
  { eapply every_run_weak; [|apply run_grid_linear; exact Hsep]. intros M (es & HP & ->). apply HQ.
    rewrite HP. apply (ids_events m kk (inr w h)); [apply coords_pairs; exact Hcov|exact Hd']. }
  split; [|intros Hst]; left; exists (length (map kk (coords g))).
  - destruct R as [R1 (K & R2)]. split.
    + intros s. unfold launch2D. rewrite H. cbn [bind]. rewrite Hl. apply R1.
    + exists K. intros s. unfold launch2D. rewrite H. cbn [bind]. rewrite Hl. apply R2.
  - destruct R as [R1 (K & R2)]. split.
    + intros s. unfold launch2D_get. rewrite H. cbn [bind]. rewrite Hl, Hst. apply R1.
    + exists K. intros s. unfold launch2D_get. rewrite H. cbn [bind]. rewrite Hl, Hst. apply R2.
Qed.

(** What a 1D launch does; [n] threads are asked for, more may run. *)
Lemma launch1D_run d n m k (Q : mem -> Prop) : device_ok d -> 0 < n < W32 ->
  (forall x, 0 <= x -> sound m (get m) (fun q => exists x', 0 <= x' /\ x' <> x /\ In q (map fst (events (get m) (k x')))) (k x)) ->
  (forall t es, n <= t -> t <= W32 -> Permutation es (flat_map (fun x => events (get m) (k x)) (zrange t)) -> Q (apply_all m es)) ->
  device_run (roomy (dThreads d) (dx (dGrid d)) n) m (fun s => launch1D d s m n k) Q.
Proof.
  intros Hd Hn Hs HQ.
  destruct (grid1_cases d n Hd Hn) as [[Hc H]|(b & t & H & T1 & T2 & B & BT & Hcov & Hc)].
  { right. split; [exact Hc|]. intros s. exists m. unfold launch1D. rewrite H. split; [reflexivity|apply same_mem_refl]. }
  destruct (launchable d (mkGrid (mkDim3 b 1 1) (mkDim3 t 1 1))) eqn:Hl.
  2:{ right. split.
      - intros C. apply Hc in C. assert (L : launchable d (mkGrid (mkDim3 b 1 1) (mkDim3 t 1 1)) = true); [|congruence].
        apply launchable_iff. cbn [gBlocks gThreads dx dy dz]. destruct Hd as [? ? (? & ? & ?) (? & ? & ?)]. lia.
      - intros s. exists m. unfold launch1D. rewrite H. cbn [bind]. rewrite Hl. split; [reflexivity|apply same_mem_refl]. }
  pose proof (proj1 (launchable_iff _ _) Hl) as L. cbn [gBlocks gThreads dx dy dz] in L.
  assert (HP : Permutation (filter (fun _ => true) (axis b t)) (zrange (b * t))).
  { replace (filter (fun _ : Z => true) (axis b t)) with (axis b t).
    - apply NoDup_Permutation; [apply axis_NoDup; lia|apply zrange_NoDup|]. intros x. rewrite axis_In, zrange_In by lia. reflexivity.
    - induction (axis b t) as [|a l IH]; cbn [filter]; congruence. }
  assert (Hsep : separate m (map k (axis b t))).
  { eapply separate_ids; [apply axis_NoDup; lia|exact HP|discriminate|].
    intros x Hx. apply zrange_In in Hx. eapply sound_weak; [|apply Hs; lia].
    intros q (x' & Hx' & Hne & Hq). apply zrange_In in Hx'. exists x'. split; [lia|auto]. }
  left. exists (length (map k (axis b t))).
  assert (R : every_run (length (map k (axis b t))) (fun s => run_grid s m (map k (axis b t))) Q).
  { eapply every_run_weak; [|apply run_grid_linear; exact Hsep]. intros M (es & Hes & ->). apply (HQ (b * t)); [apply Hcov; lia|lia|].
    rewrite Hes. apply (ids_events m k (fun _ => true)); [exact HP|discriminate]. }
  destruct R as [R1 (K & R2)]. split.
  - intros s. unfold launch1D. rewrite H. cbn [bind]. rewrite Hl. apply R1.
  - exists K. intros s. unfold launch1D. rewrite H. cbn [bind]. rewrite Hl. apply R2.
Qed.

(** *** Results of stores *)
Lemma apply_const m es q v : (exists e, In e es /\ fst e = q) ->
  (forall e, In e es -> fst e = q -> forall a, snd e a = v) -> get (apply_all m es) q = v.
Proof.
  intros (e0 & H0 & E0) Hv. rewrite apply_all_get.
  assert (Hf : filter (at_cell q) es <> []).
  { intros E. assert (In e0 (filter (at_cell q) es)).
    { apply filter_In. split; [assumption|]. unfold at_cell. rewrite E0. apply ptr_eqb_refl. }
    rewrite E in *. contradiction. }
  assert (Ha : forall e, In e (filter (at_cell q) es) -> forall a, snd e a = v).
  { intros e He. apply filter_In in He as [He1 He2]. unfold at_cell in He2.
    destruct (ptr_eqb_spec q (fst e)) as [E|]; [|discriminate]. apply Hv; auto. }
  generalize (get m q). induction (filter (at_cell q) es) as [|e l IH]; [congruence|].
  intros a. cbn [fold_left]. destruct l as [|e' l'].
  - cbn [fold_left]. apply Ha. cbn; auto.
  - apply IH; [discriminate|]. intros e1 He1. apply Ha. cbn [In]. auto.
Qed.

(** Threads (i, j) of a W x h grid, each storing [val j i] into sample i of row j of the
    region. *)
Lemma stores_samples m out xo yo w h val es :
  wf m out -> roi_in out xo yo w h ->
  Permutation es (flat_map (fun c => [(padd (origin out xo yo (icc out)) (snd c * irs out + fst c), fun _ : Z => val (snd c) (fst c))])
                    (pairs (w * icc out) h)) ->
  writes (@Ok mem mem (apply_all m es)) m out xo yo w h (fun i j c => val j (i * icc out + c)).
Proof.
  intros Wo Ro HP. apply writes_of_samples; [assumption|]. exists (apply_all m es). split; [reflexivity|].
  split; [apply apply_all_len|].
  assert (Hin : forall e, In e es <-> exists i j, 0 <= i < w * icc out /\ 0 <= j < h /\
     e = (padd (origin out xo yo (icc out)) (j * irs out + i), fun _ => val j i)).
  { intros e. split.
    - intros He. apply (Permutation_in _ HP) in He. apply in_flat_map in He as ([i j] & Hc & [<-|[]]).
      apply pairs_In in Hc as [Hi Hj]. exists i, j. auto.
    - intros (i & j & Hi & Hj & ->). apply (Permutation_in _ (Permutation_sym HP)). apply in_flat_map.
      exists (i, j). split; [apply pairs_In; auto|]. left. reflexivity. }
  split.
  - intros q Hq. apply apply_all_untouched. intros e He E. apply Hin in He as (i & j & Hi & Hj & ->).
    cbn [fst] in E. apply (Hq j i); auto.
  - intros j i Hj Hi. apply apply_const.
    + eexists. split; [apply Hin; exists i, j; auto|reflexivity].
    + intros e He E a. apply Hin in He as (i' & j' & Hi' & Hj' & ->). cbn [fst snd] in *.
      apply (cell_inj m _ _ _ w h) in E as [-> ->]; auto.
Qed.

(** ** Addresses in kernels *)
Lemma sample_small m im x y w h i j : wf m im -> roi_in im x y w h -> 0 <= i < w * icc im -> 0 <= j < h ->
  0 <= j * irs im /\ 0 <= j * irs im + i < W32.
Proof.
  intros Hw [] Hi Hj. pose proof (wf_rs _ _ Hw). pose proof (wf_size _ _ Hw). pose proof (wf_rs_pos _ _ Hw).
  pose proof (wf_cc_pos _ _ Hw). assert (i < irs im) by nia. nia.
Qed.
Lemma at_idx_ok m im x y w h i j p : wf m im -> roi_in im x y w h -> 0 <= i < w * icc im -> 0 <= j < h ->
  at_idx p (irs im) i j = padd p (j * irs im + i).
Proof.
  intros Hw Hr Hi Hj. destruct (sample_small m im x y w h i j Hw Hr Hi Hj). unfold at_idx.
  rewrite (u32_small (j * irs im)) by lia. rewrite u32_small by lia. reflexivity.
Qed.
Lemma at_ptr_ok m im x y w h i j p : wf m im -> roi_in im x y w h -> 0 <= i < w * icc im -> 0 <= j < h ->
  at_ptr p (irs im) i j = padd p (j * irs im + i).
Proof.
  intros Hw Hr Hi Hj. destruct (sample_small m im x y w h i j Hw Hr Hi Hj). unfold at_ptr.
  rewrite (u32_small (j * irs im)) by lia. apply padd_padd.
Qed.

Lemma in_range_out x y w h t : ~ (x < w /\ y < h) -> in_range x y w h t = PDone.
Proof.
  intros H. unfold in_range. destruct (Z.ltb_spec x w), (Z.ltb_spec y h); cbn [andb]; auto. exfalso. apply H. auto.
Qed.
Lemma in_range_in x y w h t : x < w -> y < h -> in_range x y w h t = t.
Proof. intros A B. unfold in_range. apply Z.ltb_lt in A, B. rewrite A, B. reflexivity. Qed.

(** ** Pixelwise functions *)

Lemma flat_map_pairs_ext {B} w h (f g : Z * Z -> list B) : (forall x y, 0 <= x < w -> 0 <= y < h -> f (x, y) = g (x, y)) ->
  flat_map f (pairs w h) = flat_map g (pairs w h).
Proof.
  intros H. assert (K : forall l, (forall c, In c l -> In c (pairs w h)) -> flat_map f l = flat_map g l).
  { induction l as [|[x y] l IH]; intros Hl; cbn [flat_map]; auto.
    assert (Hin := Hl (x, y) (or_introl eq_refl)). apply pairs_In in Hin as [Hx Hy]. rewrite (H x y Hx Hy).
    f_equal. apply IH. intros c Hc. apply Hl. right. exact Hc. }
  apply K. auto.
Qed.

(** A grid that stores one sample per thread. *)
Lemma store_launch d m out xo yo w h k val : device_ok d -> area m out xo yo w h ->
  (forall x y, ~ (x < w * icc out /\ y < h) -> k x y = PDone) ->
  (forall i j, 0 <= i < w * icc out -> 0 <= j < h ->
     events (get m) (k i j) = [(padd (origin out xo yo (icc out)) (j * irs out + i), fun _ => val j i)]) ->
  (forall i j, 0 <= i < w * icc out -> 0 <= j < h ->
     sound m (get m) (fun q => exists i' j', 0 <= i' < w * icc out /\ 0 <= j' < h /\ (i', j') <> (i, j) /\
                        q = padd (origin out xo yo (icc out)) (j' * irs out + i')) (k i j)) ->
  device_run (comfortable d (w * icc out) h) m (fun s => launch2D d s m (w * icc out) h k)
    (fun M => writes (@Ok mem mem M) m out xo yo w h (fun i j c => val j (i * icc out + c))).
Proof.
  intros Hd [Wo Ro] Hout He Hs.
  pose proof (wf_cc_pos _ _ Wo) as Hcc. assert (Hw0 : 0 < w) by apply Ro. assert (Hh0 : 0 < h) by apply Ro.
  assert (HW : w * icc out < W32). { pose proof (wf_bounds _ _ Wo). destruct Ro. nia. }
  assert (HH : h < W32). { pose proof (wf_bounds _ _ Wo). destruct Ro. lia. }
  apply launch2D_run; [assumption|nia|lia| | |].
  - intros x y _ _ H. apply Hout, H.
  - intros x y Hx Hy. eapply sound_weak; [|apply Hs; assumption].
    intros q (x' & y' & Hx' & Hy' & Hne & Hq). rewrite He in Hq by assumption. destruct Hq as [<-|[]].
    exists x', y'. auto.
  - intros es HP. apply stores_samples; auto. rewrite HP. unfold all_events.
    erewrite flat_map_pairs_ext; [reflexivity|]. intros x y Hx Hy. cbn [fst snd]. apply He; assumption.
Qed.

Lemma cuda2_run at_ f d m in1 x1 y1 in2 x2 y2 out xo yo w h :
  at_ = at_ptr \/ at_ = at_idx -> device_ok d ->
  area m in1 x1 y1 w h -> area m in2 x2 y2 w h -> area m out xo yo w h ->
  icc in1 = icc out -> icc in2 = icc out ->
  no_hazard out xo yo in1 x1 y1 w h -> no_hazard out xo yo in2 x2 y2 w h ->
  device_run (comfortable d (w * icc out) h) m
    (fun s => cuda2 at_ f d s m in1 x1 y1 in2 x2 y2 out xo yo w h)
    (fun M => writes (@Ok mem mem M) m out xo yo w h
       (fun i j c => f (pixel m in1 (x1 + i) (y1 + j) c) (pixel m in2 (x2 + i) (y2 + j) c))).
Proof.
  intros Hat Hd [W1 R1] [W2 R2] [Wo Ro] C1 C2 N1 N2.
  pose proof (wf_cc_pos _ _ Wo) as Hcc.
  set (k := kernel2 at_ f (origin in1 x1 y1 (icc in1)) (irs in1) (origin in2 x2 y2 (icc in2)) (irs in2)
              (origin out xo yo (icc out)) (irs out) (w * icc out) h).
  assert (Hw : u32 (w * icc out) = w * icc out) by (destruct Ro; apply (u32_width m out xo); auto; lia).
  apply (device_run_ext _ _ (fun s => launch2D d s m (w * icc out) h k)).
  { intros s. unfold cuda2, valid_roi3, valid_roi2. rewrite !(valid_roi_ok m) by assumption. cbn [andb].
    unfold common_cc3, common_cc2. rewrite ?C1, ?C2, ?Z.eqb_refl. cbn [andb]. rewrite Hw.
    rewrite (row_ptr_origin m in1 x1 y1 w h) by (assumption || lia).
    rewrite (row_ptr_origin m in2 x2 y2 w h) by (assumption || lia).
    rewrite (row_ptr_origin m out xo yo w h) by (assumption || lia). unfold k. rewrite C1, C2. reflexivity. }
  assert (Ek : forall x y, 0 <= x < w * icc out -> 0 <= y < h -> k x y =
     PLoad (padd (origin in1 x1 y1 (icc in1)) (y * irs in1 + x)) (fun a =>
     PLoad (padd (origin in2 x2 y2 (icc in2)) (y * irs in2 + x)) (fun b =>
     PStore (padd (origin out xo yo (icc out)) (y * irs out + x)) (f a b) PDone))).
  { intros x y Hx Hy. unfold k, kernel2. rewrite in_range_in by lia.
    destruct Hat as [-> | ->].
    - rewrite (at_ptr_ok m in1 x1 y1 w h), (at_ptr_ok m in2 x2 y2 w h), (at_ptr_ok m out xo yo w h) by (auto || rewrite ?C1, ?C2; auto). reflexivity.
    - rewrite (at_idx_ok m in1 x1 y1 w h), (at_idx_ok m in2 x2 y2 w h), (at_idx_ok m out xo yo w h) by (auto || rewrite ?C1, ?C2; auto). reflexivity. }
  eapply device_run_weak; [intros M HM; eapply writes_ext; [exact HM|]|
    apply (store_launch d m out xo yo w h k (fun j i => f (get m (padd (origin in1 x1 y1 (icc in1)) (j * irs in1 + i)))
         (get m (padd (origin in2 x2 y2 (icc in2)) (j * irs in2 + i))))); [assumption|split; assumption| | |]].
  - intros i j c Hi. cbv beta. unfold pixel. rewrite !px_origin, C1, C2. reflexivity.
  - intros x y H. apply in_range_out, H.
  - intros x y Hx Hy. rewrite Ek by assumption. reflexivity.
  - intros x y Hx Hy. rewrite Ek by assumption. cbn [sound].
    split; [apply (cell_inb m in1 x1 y1 w h); auto; lia|]. split.
    { intros (x' & y' & Hx' & Hy' & Hne & E). apply Hne.
      symmetry in E. apply (hazard_samples out xo yo in1 x1 y1 w h) in E as [-> ->]; auto; lia. }
    split; [apply (cell_inb m in2 x2 y2 w h); auto; lia|]. split.
    { intros (x' & y' & Hx' & Hy' & Hne & E). apply Hne.
      symmetry in E. apply (hazard_samples out xo yo in2 x2 y2 w h) in E as [-> ->]; auto; lia. }
    split; [apply (cell_inb m out xo yo w h); auto; lia|]. exact I.
Qed.

Lemma cuda1_run pre f d m inp xi yi out xo yo w h : device_ok d ->
  area m inp xi yi w h -> area m out xo yo w h -> icc inp = icc out -> pre inp out = true ->
  no_hazard out xo yo inp xi yi w h ->
  device_run (comfortable d (w * icc out) h) m (fun s => cuda1 pre f d s m inp xi yi out xo yo w h)
    (fun M => writes (@Ok mem mem M) m out xo yo w h (fun i j c => f (pixel m inp (xi + i) (yi + j) c))).
Proof.
  intros Hd [W1 R1] [Wo Ro] C1 Hp N1.
  pose proof (wf_cc_pos _ _ Wo) as Hcc.
  set (k := kernel1 f (origin inp xi yi (icc inp)) (irs inp) (origin out xo yo (icc out)) (irs out) (w * icc out) h).
  assert (Hw : u32 (w * icc out) = w * icc out) by (destruct Ro; apply (u32_width m out xo); auto; lia).
  apply (device_run_ext _ _ (fun s => launch2D d s m (w * icc out) h k)).
  { intros s. unfold cuda1, valid_roi2. rewrite !(valid_roi_ok m) by assumption. cbn [andb].
    rewrite Hp, C1, Hw.
    rewrite (row_ptr_origin m inp xi yi w h) by (assumption || lia).
    rewrite (row_ptr_origin m out xo yo w h) by (assumption || lia). unfold k. rewrite C1. reflexivity. }
  assert (Ek : forall x y, 0 <= x < w * icc out -> 0 <= y < h -> k x y =
     PLoad (padd (origin inp xi yi (icc inp)) (y * irs inp + x)) (fun a =>
     PStore (padd (origin out xo yo (icc out)) (y * irs out + x)) (f a) PDone)).
  { intros x y Hx Hy. unfold k, kernel1. rewrite in_range_in by lia.
    rewrite (at_idx_ok m inp xi yi w h), (at_idx_ok m out xo yo w h) by (auto || rewrite ?C1; auto). reflexivity. }
  eapply device_run_weak; [intros M HM; eapply writes_ext; [exact HM|]|
    apply (store_launch d m out xo yo w h k (fun j i => f (get m (padd (origin inp xi yi (icc inp)) (j * irs inp + i)))));
      [assumption|split; assumption| | |]].
  - intros i j c Hi. cbv beta. unfold pixel. rewrite !px_origin, C1. reflexivity.
  - intros x y H. apply in_range_out, H.
  - intros x y Hx Hy. rewrite Ek by assumption. reflexivity.
  - intros x y Hx Hy. rewrite Ek by assumption. cbn [sound].
    split; [apply (cell_inb m inp xi yi w h); auto; lia|]. split.
    { intros (x' & y' & Hx' & Hy' & Hne & E). apply Hne.
      symmetry in E. apply (hazard_samples out xo yo inp xi yi w h) in E as [-> ->]; auto; lia. }
    split; [apply (cell_inb m out xo yo w h); auto; lia|]. exact I.
Qed.

(** ** Fill, Flip, ExtractChannel *)
Lemma is_gray_true im : icc im = 1 -> is_gray im = true.
Proof. intros H. unfold is_gray, GRAY_SCALE. rewrite H. reflexivity. Qed.
Lemma cuda_Fill_run d m im x y w h v : device_ok d -> area m im x y w h -> icc im = 1 ->
  device_run (comfortable d w h) m (fun s => cuda_Fill d s m im x y w h v)
    (fun M => writes (@Ok mem mem M) m im x y w h (fun _ _ _ => v)).
Proof.
  intros Hd [W R] C. pose proof (wf_cc_pos _ _ W) as Hcc.
  set (k := fillKernel (origin im x y (icc im)) (irs im) w h v).
  apply (device_run_ext _ _ (fun s => launch2D d s m (w * icc im) h k)).
  { intros s. unfold cuda_Fill. rewrite (valid_roi_ok m) by assumption. rewrite is_gray_true by assumption. cbn [andb].
    rewrite (row_ptr_origin m im x y w h) by (assumption || lia). unfold k. rewrite C, Z.mul_1_r. reflexivity. }
  replace (comfortable d w h) with (comfortable d (w * icc im) h) by (rewrite C, Z.mul_1_r; reflexivity).
  assert (Ek : forall a b, 0 <= a < w * icc im -> 0 <= b < h -> k a b = PStore (padd (origin im x y (icc im)) (b * irs im + a)) v PDone).
  { intros a b Ha Hb. unfold k, fillKernel. rewrite in_range_in by lia. rewrite (at_idx_ok m im x y w h) by auto. reflexivity. }
  apply (store_launch d m im x y w h k (fun _ _ => v)); [assumption|split; assumption| | |].
  - intros a b H. apply in_range_out. lia.
  - intros a b Ha Hb. rewrite Ek by assumption. reflexivity.
  - intros a b Ha Hb. rewrite Ek by assumption. cbn [sound]. split; [apply (cell_inb m im x y w h); auto; lia|exact I].
Qed.

Lemma disjoint_cells a xa ya b xb yb w h i j i' j' : disjoint a xa ya w h b xb yb w h -> 0 < icc a -> 0 < icc b ->
  0 <= i < w * icc a -> 0 <= j < h -> 0 <= i' < w * icc b -> 0 <= j' < h ->
  padd (origin a xa ya (icc a)) (j * irs a + i) <> padd (origin b xb yb (icc b)) (j' * irs b + i').
Proof.
  intros D Pa Pb Hi Hj Hi' Hj' E.
  destruct (split_index (icc a) i w) as (A1 & A2 & A3); try lia.
  destruct (split_index (icc b) i' w) as (B1 & B2 & B3); try lia.
  apply (D (i / icc a) j (i mod icc a) (i' / icc b) j' (i' mod icc b)); try (unfold inside; lia).
  rewrite !px_origin, <- A3, <- B3. exact E.
Qed.

Lemma cuda_Extract_run d m inp xi yi out xo yo w h ch : device_ok d ->
  area m inp xi yi w h -> area m out xo yo w h -> icc out = 1 -> 0 <= ch < icc inp ->
  disjoint out xo yo w h inp xi yi w h ->
  device_run (comfortable d w h) m (fun s => cuda_ExtractChannel d s m inp xi yi out xo yo w h ch)
    (fun M => writes (@Ok mem mem M) m out xo yo w h (fun i j _ => pixel m inp (xi + i) (yi + j) ch)).
Proof.
  intros Hd [W1 R1] [Wo Ro] C Hch D. pose proof (wf_cc_pos _ _ W1) as Hcc.
  set (k := extractKernel (padd (origin inp xi yi (icc inp)) ch) (irs inp) (icc inp) (origin out xo yo (icc out)) (irs out) w h).
  apply (device_run_ext _ _ (fun s => launch2D d s m (w * icc out) h k)).
  { intros s. unfold cuda_ExtractChannel, valid_roi2. rewrite !(valid_roi_ok m) by assumption. rewrite is_gray_true by assumption. cbn [andb].
    destruct (Z.ltb_spec ch (icc inp)); [|lia].
    rewrite (row_ptr_origin m inp xi yi w h), (row_ptr_origin m out xo yo w h) by (assumption || lia).
    unfold k. rewrite C, Z.mul_1_r. reflexivity. }
  replace (comfortable d w h) with (comfortable d (w * icc out) h) by (rewrite C, Z.mul_1_r; reflexivity).
  assert (Ek : forall a b, 0 <= a < w * icc out -> 0 <= b < h -> k a b =
    PLoad (padd (origin inp xi yi (icc inp)) (b * irs inp + (a * icc inp + ch))) (fun v =>
    PStore (padd (origin out xo yo (icc out)) (b * irs out + a)) v PDone)).
  { intros a b Ha Hb. unfold k, extractKernel. rewrite in_range_in by lia. rewrite (at_idx_ok m out xo yo w h) by auto.
    destruct (sample_small m inp xi yi w h (a * icc inp) b) as [S1 S2]; auto; [nia|].
    rewrite (u32_small (b * irs inp)) by lia. rewrite (u32_small (a * icc inp)) by nia. rewrite u32_small by lia.
    rewrite padd_padd. do 2 f_equal. lia. }
  eapply device_run_weak; [intros M HM; eapply writes_ext; [exact HM|]|
    apply (store_launch d m out xo yo w h k (fun j i => get m (padd (origin inp xi yi (icc inp)) (j * irs inp + (i * icc inp + ch)))));
      [assumption|split; assumption| | |]].
  - intros i j c (Hi & Hj & Hc). cbv beta. unfold pixel. rewrite px_origin. replace (i * icc out + c) with i by lia. reflexivity.
  - intros a b H. apply in_range_out. lia.
  - intros a b Ha Hb. rewrite Ek by assumption. reflexivity.
  - intros a b Ha Hb. rewrite Ek by assumption. cbn [sound].
    assert (0 <= a * icc inp + ch < w * icc inp) by nia.
    split; [apply (cell_inb m inp xi yi w h); auto; lia|]. split.
    { intros (x' & y' & Hx' & Hy' & Hne & E). symmetry in E. revert E. apply (disjoint_cells out xo yo inp xi yi w h); auto; lia. }
    split; [apply (cell_inb m out xo yo w h); auto; lia|]. exact I.
Qed.
