(** Properties C56 to C59 and C84: the memory allocator. *)
From Coq Require Import ZArith List Bool Lia Sorted.
From Verif Require Import Base BaseProofs Alloc AllocProofs.
Import ListNotations.
Open Scope Z_scope.
Ltac Zify.zify_post_hook ::= Z.div_mod_to_equations.

(** ** Histories *)
(** Two address ranges (address, bytes) have no byte in common; a range of no bytes still
    has an address of its own. *)
Definition span1 (n : Z) : Z := Z.max 1 n.
Definition apart (r r' : Z * Z) : Prop :=
  fst r + span1 (snd r) <= fst r' \/ fst r' + span1 (snd r') <= fst r.
(** The memory block of the arena: the reserved size and 32 bytes for alignment. *)
Definition arena_block (st : astate) : option (Z * Z) :=
  match adata st with Some d => Some (d, asize st + 32) | None => None end.

(** When a program may call an operation, and what [new] may return: [reserve] only with
    nothing allocated in the arena; [new] returns memory that is not in use; only addresses the
    program holds are freed. *)
Definition aop_ok (s : astate * list (Z * Z)) (o : aop) : Prop :=
  let '(st, live) := s in
  match o with
  | AReserve size d => 0 < size /\ size + 32 < 2 ^ 63 /\ 0 < d /\ aallocd st = [] /\
      forall r, In r live -> apart (d, size + 32) r
  | AAlloc n sz h => 0 <= n /\ 0 < sz /\ n * sz < 2 ^ 63 /\ 0 < h /\
      (forall r, In r live -> apart (h, n * sz) r) /\
      (forall b, arena_block st = Some b -> apart (h, n * sz) b)
  | AFree a => a = 0 \/ exists n, In (a, n) live
  end.
Fixpoint aops_ok (s : astate * list (Z * Z)) (ops : list aop) : Prop :=
  match ops with
  | [] => True
  | o :: t => aop_ok s o /\ forall s', astep s o = Ok s' -> aops_ok s' t
  end.

(** ** Invariant *)
Record ainv (st : astate) (live : list (Z * Z)) : Prop := mkAinv {
  v_lock : alocked st = false;
  v_none : adata st = None -> aallocd st = [];
  v_arena : forall d, adata st = Some d -> 0 < d /\ arena_ok (asize st) (afc st) (aallocd st);
  v_nodup : NoDup (map fst live);
  v_live : forall a n, In (a, n) live -> 0 < a /\ 0 <= n /\
    ((exists d o L, adata st = Some d /\ a = aligned d + o /\ In (o, L) (aallocd st) /\ n <= 2 ^ Z.of_nat L) \/
     In (a, n) (aheap st));
  v_heap : forall a n, In (a, n) (aheap st) -> In (a, n) live;
  v_out : forall r b, In r (aheap st) -> arena_block st = Some b -> apart r b;
  v_apart : forall r r', In r (aheap st) -> In r' (aheap st) -> fst r <> fst r' -> apart r r'
}.
Lemma aligned_range d : d <= aligned d < d + 32.
Proof. unfold aligned. destruct (Z.eqb_spec (d mod 32) 0); lia. Qed.

Lemma ainv_init : ainv ainit [].
Proof. constructor; cbn; try discriminate; try contradiction; auto. constructor. Qed.

Lemma apart_sym r r' : apart r r' -> apart r' r.
Proof. unfold apart. tauto. Qed.

(** Any two ranges the program holds are disjoint. *)
Lemma live_apart st live r r' : ainv st live -> In r live -> In r' live -> fst r <> fst r' -> apart r r'.
Proof.
  intros V Hr Hr' N. destruct r as [a n], r' as [a' n']. cbn [fst] in N.
  destruct (v_live _ _ V a n Hr) as (_ & Hn & Ha). destruct (v_live _ _ V a' n' Hr') as (_ & Hn' & Ha').
  assert (Hmix : forall a n a' n' d o L, adata st = Some d -> a = aligned d + o -> In (o, L) (aallocd st) ->
    n <= 2 ^ Z.of_nat L -> In (a', n') (aheap st) -> apart (a, n) (a', n')).
  { clear - V. intros a n a' n' d o L Hd -> Hi Hn Hh. destruct (v_arena _ _ V d Hd) as (_ & Ho).
    destruct (arena_in _ _ _ o L Ho Hi) as (G1 & G2). pose proof (v_out _ _ V _ (d, asize st + 32) Hh) as Hout.
    unfold arena_block in Hout. rewrite Hd in Hout. specialize (Hout eq_refl). pose proof (aligned_range d).
    pose proof (pow_pos L). unfold apart, span1 in *. cbn [fst snd] in *. lia. }
  destruct Ha as [(d & o & L & Hd & Ea & Hi & Hle)|Ha], Ha' as [(d' & o' & L' & Hd' & Ea' & Hi' & Hle')|Ha'].
  - assert (d' = d) by congruence. subst d'. destruct (v_arena _ _ V d Hd) as (_ & Ho).
    destruct (arena_disj _ _ _ o L o' L' Ho Hi Hi') as [G|G]; [intros E; injection E as -> ->; lia| |];
      unfold apart, span1; cbn; pose proof (pow_pos L); pose proof (pow_pos L'); lia.
  - apply (Hmix a n a' n' d o L); auto.
  - apply apart_sym. apply (Hmix a' n' a n d' o' L'); auto.
  - apply (v_apart _ _ V (a, n) (a', n')); auto.
Qed.

Lemma step_reserve st live size d : ainv st live -> aop_ok (st, live) (AReserve size d) ->
  exists st', astep (st, live) (AReserve size d) = Ok (st', live) /\ ainv st' live.
Proof.
  intros V (Hs & Hs2 & Hd & Hal & Hlive). cbn [astep]. unfold reserve. destruct (Z.eqb_spec size 0) as [E0|N0]; [lia|]. cbn [negb].
  destruct (Z.eqb_spec size (asize st)) as [E|N]; [cbn [bind]; exists st; auto|].
  rewrite (v_lock _ _ V), Hal. destruct (@fill0_ok astate size) as (fc & Ef & F1 & F2 & F3 & F4 & F5); [lia|].
  rewrite Ef. cbn [bind]. eexists. split; [reflexivity|]. constructor; cbn.
  - reflexivity.
  - discriminate.
  - intros d' E. injection E as <-. split; [exact Hd|]. constructor; auto; cbn; try contradiction; try lia;
      try (intros k; rewrite F4; lia).
  - apply (v_nodup _ _ V).
  - intros a n Hi. destruct (v_live _ _ V a n Hi) as (H1 & H2 & [(d' & o & L & _ & _ & Hi' & _)|H3]); auto.
    rewrite Hal in Hi'. contradiction.
  - apply (v_heap _ _ V).
  - intros [a n] b Hr E. unfold arena_block in E. cbn in E. injection E as <-.
    apply apart_sym. apply Hlive. apply (v_heap _ _ V). exact Hr.
  - apply (v_apart _ _ V).
Qed.

(** new *)
Lemma step_heap st live n h : ainv st live -> 0 <= n -> 0 < h -> (forall r, In r live -> apart (h, n) r) ->
  (forall b, arena_block st = Some b -> apart (h, n) b) ->
  ainv (mkA (adata st) (asize st) (afc st) (aallocd st) false ((h, n) :: aheap st)) ((h, n) :: live).
Proof.
  intros V Hn Hh Hl Hb. constructor; cbn.
  - reflexivity.
  - apply (v_none _ _ V).
  - apply (v_arena _ _ V).
  - constructor; [|apply (v_nodup _ _ V)]. intros Hi. apply in_map_iff in Hi as ([a n'] & E & Hi). cbn in E. subst a.
    specialize (Hl _ Hi). unfold apart, span1 in Hl. cbn in Hl. lia.
  - intros a n' [E|Hi].
    + injection E as <- <-. auto.
    + destruct (v_live _ _ V a n' Hi) as (H1 & H2 & [H3|H3]); auto.
  - intros a n' [E|Hi]; [left; exact E|right; apply (v_heap _ _ V); exact Hi].
  - intros r b [<-|Hi] E; [apply Hb; exact E|apply (v_out _ _ V); assumption].
  - assert (G : forall r, In r (aheap st) -> apart (h, n) r).
    { intros [a n'] Hi. apply Hl. apply (v_heap _ _ V). exact Hi. }
    intros r r' [<-|Hi] [<-|Hi'] N; [contradiction|auto|apply apart_sym; auto|apply (v_apart _ _ V); assumption].
Qed.

Lemma step_alloc st live n sz h : ainv st live -> aop_ok (st, live) (AAlloc n sz h) ->
  exists st' a, allocate st n sz h = Ok (st', a) /\ ainv st' ((a, n * sz) :: live).
Proof.
  intros V (Hn & Hz & Hb & Hh & Hl & Ho). assert (0 <= n * sz) by nia. unfold allocate. rewrite (v_lock _ _ V).
  assert (Hheap : exists st' a, (guard (n * sz <? 2 ^ 63) with st;
      Ok (mkA (adata st) (asize st) (afc st) (aallocd st) false ((h, n * sz) :: aheap st), h)) = Ok (st', a) /\
      ainv st' ((a, n * sz) :: live)).
  { destruct (Z.ltb_spec (n * sz) (2 ^ 63)); [|lia]. eexists. eexists. split; [reflexivity|].
    apply step_heap; auto. }
  destruct (adata st) as [d|] eqn:Ed; [|exact Hheap]. rewrite <- Ed in Hheap.
  assert (Eu : u64 (n * sz) = n * sz) by (unfold u64; apply Z.mod_small; lia). rewrite Eu.
  destruct (Z.ltb_spec (n * sz) (asize st)) as [Hlt|]; [|rewrite <- Ed; exact Hheap].
  destruct (v_arena _ _ V d Ed) as (Hd & Har).
  destruct (@getAllocationLevel_ok astate (n * sz)) as (lv & -> & Hge & _ & _); [lia|]. cbn [bind].
  destruct (@split_ok astate astate _ _ _ lv Har) as [(fc' & o & rest & Es & V' & A' & N' & L' & Hlv & _ & _)|Es]; rewrite Es; cbn [bind];
    [|rewrite <- Ed; exact Hheap].
  rewrite V'. assert (Hex : existsb (fun c => fst c =? o) (aallocd st) = false).
  { destruct (existsb _ _) eqn:X; [|reflexivity]. exfalso. apply existsb_exists in X as ([o' L0] & Hi & E).
    apply Z.eqb_eq in E. cbn in E. subst o'. apply N'. apply in_map_iff. exists (o, L0). auto. }
  rewrite Hex. eexists. eexists. split; [reflexivity|].
  destruct (arena_in _ _ _ o lv A' (or_introl eq_refl)) as (G1 & G2).
  constructor; cbn.
  - reflexivity.
  - discriminate.
  - intros d' E. injection E as <-. auto.
  - constructor; [|apply (v_nodup _ _ V)]. intros Hi. apply in_map_iff in Hi as ([a n'] & E & Hi). cbn in E. subst a.
    destruct (v_live _ _ V _ n' Hi) as (_ & _ & [(d' & o' & L0 & Hd' & Eo & Hi' & _)|Hp]).
    + assert (d' = d) by congruence. subst d'. assert (o' = o) by lia. subst o'. apply N'. apply in_map_iff.
      exists (o, L0). auto.
    + pose proof (v_out _ _ V _ (d, asize st + 32) Hp) as Hout. unfold arena_block in Hout. rewrite Ed in Hout.
      specialize (Hout eq_refl). pose proof (aligned_range d). pose proof (pow_pos lv). unfold apart, span1 in Hout. cbn in Hout. lia.
  - intros a n' [E|Hi].
    + injection E as <- <-. pose proof (aligned_range d). split; [lia|]. split; [lia|]. left. exists d, o, lv. auto.
    + destruct (v_live _ _ V a n' Hi) as (H1 & H2 & [(d' & o' & L0 & Hd' & Eo & Hi' & Hle)|H3]); auto.
      split; [exact H1|]. split; [exact H2|]. left. exists d', o', L0. split; [congruence|]. auto.
  - intros a n' Hi. right. apply (v_heap _ _ V). exact Hi.
  - intros r b Hi E. apply (v_out _ _ V r b Hi). unfold arena_block in *. rewrite Ed. exact E.
  - apply (v_apart _ _ V).
Qed.

Lemma filter_other {A} (f : A -> bool) x l : In x (filter f l) -> In x l.
Proof. intros H. apply filter_In in H. tauto. Qed.
Lemma NoDup_map_filter {A} (f : A -> bool) (g : A -> Z) l : NoDup (map g l) -> NoDup (map g (filter f l)).
Proof.
  induction l as [|x t IH]; intros H; cbn; [constructor|]. inversion H as [|? ? H1 H2]; subst.
  destruct (f x); [|auto]. cbn. constructor; [|auto]. intros Hi. apply H1. apply in_map_iff in Hi as (y & E & Hi).
  apply in_map_iff. exists y. split; [exact E|]. apply (filter_other f). exact Hi.
Qed.

Lemma step_free st live a : ainv st live -> aop_ok (st, live) (AFree a) ->
  exists st', free st a = Ok st' /\ ainv st' (filter (fun b => negb (fst b =? a)) live).
Proof.
  intros V Hop. cbn [aop_ok] in Hop.
  assert (Hpos : forall b n, In (b, n) live -> 0 < b) by (intros b n Hi; apply (v_live _ _ V b n Hi)).
  assert (Hf0 : a = 0 -> filter (fun b => negb (fst b =? a)) live = live).
  { intros ->. clear -Hpos. induction live as [|[b n] t IH]; [reflexivity|]. cbn.
    destruct (Z.eqb_spec b 0) as [->|N]; [specialize (Hpos 0 n (or_introl eq_refl)); lia|]. cbn. f_equal. apply IH.
    intros b' n' Hi. apply (Hpos b' n'). right. exact Hi. }
  assert (Hheap : (forall d o L, adata st = Some d -> In (o, L) (aallocd st) -> a <> aligned d + o) ->
    exists st', (if a =? 0 then Ok st else
      if existsb (fun b => fst b =? a) (aheap st)
      then Ok (mkA (adata st) (asize st) (afc st) (aallocd st) false (filter (fun b => negb (fst b =? a)) (aheap st)))
      else UB) = @Ok astate _ st' /\ ainv st' (filter (fun b => negb (fst b =? a)) live)).
  { intros Hno. destruct (Z.eqb_spec a 0) as [E0|N0].
    - exists st. split; [reflexivity|]. rewrite Hf0 by assumption. exact V.
    - destruct Hop as [?|(n & Hi)]; [contradiction|].
      destruct (v_live _ _ V a n Hi) as (H1 & H2 & [(d & o & L & Hd & Ea & Hi' & _)|Hh]); [destruct (Hno d o L Hd Hi' Ea)|].
      assert (X : existsb (fun b => fst b =? a) (aheap st) = true).
      { apply existsb_exists. exists (a, n). split; [exact Hh|]. apply Z.eqb_refl. }
      rewrite X. eexists. split; [reflexivity|]. constructor; cbn.
      + reflexivity.
      + apply (v_none _ _ V).
      + apply (v_arena _ _ V).
      + apply NoDup_map_filter, (v_nodup _ _ V).
      + intros b n' Hb. apply filter_In in Hb as [Hb Hne]. destruct (v_live _ _ V b n' Hb) as (G1 & G2 & [G3|G3]); auto.
        split; [exact G1|]. split; [exact G2|]. right. apply filter_In. auto.
      + intros b n' Hb. apply filter_In in Hb as [Hb Hne]. apply filter_In. split; [apply (v_heap _ _ V); exact Hb|exact Hne].
      + intros r b Hr E. apply filter_other in Hr. apply (v_out _ _ V r b Hr E).
      + intros r r' Hr Hr'. apply filter_other in Hr, Hr'. apply (v_apart _ _ V r r' Hr Hr'). }
  unfold free. rewrite (v_lock _ _ V). destruct (adata st) as [d|] eqn:Ed.
  2:{ rewrite <- Ed in *. apply Hheap. intros d o L Hd. congruence. }
  destruct (v_arena _ _ V d Ed) as (Hd & Har).
  destruct (Z.leb_spec (aligned d) a) as [Hge|Hlt].
  2:{ rewrite <- Ed in Hheap |- *. apply Hheap. intros d' o L Hd' Hi Ea. assert (d' = d) by congruence. subst d'.
      destruct (arena_in _ _ _ o L Har Hi). lia. }
  destruct (find (fun c => fst c =? a - aligned d) (aallocd st)) as [[o lv]|] eqn:Ef.
  - apply find_some in Ef as (Hi & Eo). apply Z.eqb_eq in Eo. cbn in Eo.
    destruct (Nat.ltb_spec lv (length (afc st))) as [_|Hbad]; [|pose proof (ar_lev _ _ _ Har o lv Hi); lia].
    rewrite len_setl. destruct (@free_arena_ok astate _ _ _ o lv Har Hi) as (fc' & -> & A' & L'). cbn [bind].
    eexists. split; [reflexivity|]. constructor; cbn.
    + reflexivity.
    + discriminate.
    + intros d' E. injection E as <-. auto.
    + apply NoDup_map_filter, (v_nodup _ _ V).
    + intros b n' Hb. apply filter_In in Hb as [Hb Hne]. cbn in Hne.
      destruct (v_live _ _ V b n' Hb) as (G1 & G2 & [(d' & o' & L0 & Hd' & Eb & Hi' & Hle)|G3]); auto.
      split; [exact G1|]. split; [exact G2|]. left. exists d', o', L0. split; [congruence|]. split; [exact Eb|].
      split; [|exact Hle]. apply filter_In. split; [exact Hi'|]. cbn. assert (d' = d) by congruence. subst d'.
      destruct (Z.eqb_spec o' o) as [->|]; [|reflexivity]. exfalso.
      destruct (Z.eqb_spec b a); [discriminate|]. lia.
    + intros b n' Hb. apply filter_In. split; [apply (v_heap _ _ V); exact Hb|]. cbn.
      destruct (Z.eqb_spec b a) as [->|]; [|reflexivity]. exfalso.
      pose proof (v_out _ _ V _ (d, asize st + 32) Hb) as Hout. unfold arena_block in Hout. rewrite Ed in Hout.
      specialize (Hout eq_refl). destruct (arena_in _ _ _ o lv Har Hi). pose proof (aligned_range d). pose proof (pow_pos lv).
      unfold apart, span1 in Hout. cbn in Hout. lia.
    + intros r b Hr E. apply (v_out _ _ V r b Hr). unfold arena_block in *. rewrite Ed. exact E.
    + apply (v_apart _ _ V).
  - rewrite <- Ed in Hheap |- *. apply Hheap. intros d' o L Hd' Hi Ea. assert (d' = d) by congruence. subst d'.
    pose proof (find_none _ _ Ef (o, L) Hi) as X. cbn in X. apply Z.eqb_neq in X. lia.
Qed.

Lemma arun_ok : forall ops st live, ainv st live -> aops_ok (st, live) ops ->
  exists st' live', arun (st, live) ops = Ok (st', live') /\ ainv st' live'.
Proof.
  induction ops as [|o t IH]; intros st live V H; [exists st, live; auto|]. destruct H as (Ho & Ht). cbn [arun].
  destruct o as [size d|n sz h|a].
  - destruct (step_reserve st live size d V Ho) as (st' & E & V'). rewrite E. cbn [bind]. apply IH; [exact V'|].
    apply Ht. exact E.
  - destruct (step_alloc st live n sz h V Ho) as (st' & a & E & V').
    assert (E' : astep (st, live) (AAlloc n sz h) = Ok (st', (a, n * sz) :: live)) by (cbn [astep]; rewrite E; reflexivity).
    rewrite E'. cbn [bind]. apply IH; [exact V'|]. apply Ht. exact E'.
  - destruct (step_free st live a V Ho) as (st' & E & V').
    assert (E' : astep (st, live) (AFree a) = Ok (st', filter (fun b => negb (fst b =? a)) live)) by (cbn [astep]; rewrite E; reflexivity).
    rewrite E'. cbn [bind]. apply IH; [exact V'|]. apply Ht. exact E'.
Qed.

(** ** C56 *)
(** In every history no operation is undefined or blocks, the ranges held are pairwise
    disjoint, and each is inside the arena or outside the arena's block. *)
Theorem C56_no_overlap : forall ops, aops_ok (ainit, []) ops ->
  exists st live, arun (ainit, []) ops = Ok (st, live) /\
    NoDup (map fst live) /\
    (forall r r', In r live -> In r' live -> fst r <> fst r' -> apart r r') /\
    (forall a n, In (a, n) live -> forall d, adata st = Some d ->
       (aligned d <= a /\ a + n <= aligned d + asize st) \/ apart (a, n) (d, asize st + 32)) /\
    (forall d, adata st = Some d -> d <= aligned d /\ aligned d + asize st <= d + (asize st + 32) /\ aligned d mod 32 = 0).
Proof.
  intros ops H. destruct (arun_ok ops ainit [] ainv_init H) as (st & live & E & V). exists st, live.
  split; [exact E|]. split; [apply (v_nodup _ _ V)|]. split; [intros r r'; apply (live_apart st live _ _ V)|]. split.
  - intros a n Hi d Hd. destruct (v_live _ _ V a n Hi) as (_ & _ & [(d' & o & L & Hd' & -> & Hi' & Hle)|Hh]).
    + left. assert (d' = d) by congruence. subst d'. destruct (v_arena _ _ V d Hd) as (_ & Har).
      destruct (arena_in _ _ _ o L Har Hi'). lia.
    + right. apply (v_out _ _ V _ _ Hh). unfold arena_block. rewrite Hd. reflexivity.
  - intros d _. pose proof (aligned_range d). split; [lia|]. split; [lia|]. unfold aligned.
    destruct (Z.eqb_spec (d mod 32) 0); lia.
Qed.
(** One more allocation never touches what is already held. *)
Theorem C56_new_range_is_fresh : forall ops st live n sz h, aops_ok (ainit, []) ops ->
  arun (ainit, []) ops = Ok (st, live) -> aop_ok (st, live) (AAlloc n sz h) ->
  exists st' a, allocate st n sz h = Ok (st', a) /\ forall r, In r live -> apart (a, n * sz) r.
Proof.
  intros ops st live n sz h H E Ho. destruct (arun_ok ops ainit [] ainv_init H) as (s & l & E' & V).
  assert (s = st /\ l = live) as [-> ->] by (split; congruence).
  destruct (step_alloc st live n sz h V Ho) as (st' & a & Ea & V'). exists st', a. split; [exact Ea|].
  intros r Hr. apply (live_apart st' _ (a, n * sz) r V'); [left; reflexivity|right; exact Hr|].
  cbn. pose proof (v_nodup _ _ V') as Hn. cbn in Hn. inversion Hn as [|? ? Hn1 _]; subst. intros ->. apply Hn1.
  apply in_map. exact Hr.
Qed.

(** A history with arena and heap allocations, frees and a second reserve. *)
Definition hist1 : list aop :=
  [AReserve 100 1000; AAlloc 5 4 5000; AAlloc 40 1 5000; AAlloc 200 1 6000; AFree 1088; AAlloc 3 2 7000;
   AFree 6000; AAlloc 1 1 8000].
Definition aop_okb (s : astate * list (Z * Z)) (o : aop) : bool :=
  let '(st, live) := s in
  let apb (r r' : Z * Z) := (fst r + span1 (snd r) <=? fst r') || (fst r' + span1 (snd r') <=? fst r) in
  match o with
  | AReserve size d => (0 <? size) && (size + 32 <? 2 ^ 63) && (0 <? d) && (match aallocd st with [] => true | _ => false end)
      && forallb (apb (d, size + 32)) live
  | AAlloc n sz h => (0 <=? n) && (0 <? sz) && (n * sz <? 2 ^ 63) && (0 <? h) && forallb (apb (h, n * sz)) live
      && match arena_block st with Some b => apb (h, n * sz) b | None => true end
  | AFree a => (a =? 0) || existsb (fun r => fst r =? a) live
  end.
Fixpoint aops_okb (s : astate * list (Z * Z)) (ops : list aop) : bool :=
  match ops with
  | [] => true
  | o :: t => aop_okb s o && match astep s o with Ok s' => aops_okb s' t | _ => true end
  end.
Lemma aop_okb_ok s o : aop_okb s o = true -> aop_ok s o.
Proof.
  destruct s as [st live], o as [size d|n sz h|a]; cbn [aop_okb aop_ok]; intros H.
  - rewrite !andb_true_iff in H. destruct H as ((((H1 & H2) & H3) & H4) & H5). apply Z.ltb_lt in H1, H2, H3.
    destruct (aallocd st); [|discriminate]. rewrite forallb_forall in H5. split; [assumption|]. split; [assumption|]. split; [assumption|]. split; [reflexivity|].
    intros r Hr. specialize (H5 r Hr). apply orb_prop in H5. unfold apart. cbn [fst snd] in *. lia.
  - rewrite !andb_true_iff in H. destruct H as (((((H1 & H2) & H3) & H4) & H5) & H6). apply Z.ltb_lt in H2, H3, H4. apply Z.leb_le in H1.
    rewrite forallb_forall in H5. repeat (split; [assumption|]). split.
    + intros r Hr. specialize (H5 r Hr). apply orb_prop in H5. unfold apart. cbn [fst snd] in *. lia.
    + intros b E. rewrite E in H6. apply orb_prop in H6. unfold apart. cbn [fst snd] in *. lia.
  - apply orb_prop in H as [H|H]; [left; lia|]. right. apply existsb_exists in H as ([b n] & Hi & E). apply Z.eqb_eq in E.
    cbn in E. subst b. exists n. exact Hi.
Qed.
Lemma aops_okb_ok : forall ops s, aops_okb s ops = true -> aops_ok s ops.
Proof.
  induction ops as [|o t IH]; intros s H; cbn [aops_okb aops_ok] in *; [exact I|].
  apply andb_prop in H as [H1 H2]. split; [apply aop_okb_ok; exact H1|]. intros s' E. rewrite E in H2. apply IH. exact H2.
Qed.
Example C56_case : aops_ok (ainit, []) hist1.
Proof. apply aops_okb_ok. vm_compute. reflexivity. Qed.
Example C56_case_run : match arun (ainit, []) hist1 with
  | Ok (st, live) => live = [(1120, 1); (1088, 6); (1024, 40)] | _ => False end.
Proof. vm_compute. reflexivity. Qed.
Print Assumptions C56_no_overlap.
Print Assumptions C56_new_range_is_fresh.

(** ** C57 *)
(** Bytes in the free lists (a chunk of level i has 2^i bytes) and in allocated chunks. *)
Fixpoint free_bytes (i : nat) (fc : list (list Z)) : Z :=
  match fc with [] => 0 | l :: t => Z.of_nat (length l) * 2 ^ Z.of_nat i + free_bytes (S i) t end.
Fixpoint used_bytes (al : list (Z * nat)) : Z :=
  match al with [] => 0 | c :: t => 2 ^ Z.of_nat (snd c) + used_bytes t end.
(** All chunks, as (offset, level). *)
Fixpoint free_chunks (i : nat) (fc : list (list Z)) : list (Z * nat) :=
  match fc with [] => [] | l :: t => map (fun o => (o, i)) l ++ free_chunks (S i) t end.
Definition chunks (st : astate) : list (Z * nat) := free_chunks 0 (afc st) ++ aallocd st.
Definition contains (k : Z) (c : Z * nat) : bool := (fst c <=? k) && (k <? fst c + 2 ^ Z.of_nat (snd c)).

Lemma free_bytes_tot : forall fc i, free_bytes i fc = totF csize i fc.
Proof.
  induction fc as [|l t IH]; intros i; cbn [free_bytes totF]; [reflexivity|]. rewrite IH. f_equal.
  induction l as [|o l IHl]; cbn [totL length]; [lia|]. rewrite <- IHl. unfold csize. lia.
Qed.
Lemma used_bytes_tot : forall al, used_bytes al = totA csize al.
Proof. induction al as [|[o L] t IH]; cbn; [reflexivity|]. rewrite IH. reflexivity. Qed.
Lemma count_tot k : forall al, Z.of_nat (length (filter (contains k) al)) = totA (cov k) al.
Proof.
  induction al as [|[o L] t IH]; cbn [filter totA]; [reflexivity|]. unfold contains at 1, cov at 1. cbn [fst snd].
  destruct (_ && _); cbn [length]; lia.
Qed.
Lemma totA_app f : forall a b, totA f (a ++ b) = totA f a + totA f b.
Proof. induction a as [|[o L] t IH]; intros b; cbn; [reflexivity|]. rewrite IH. lia. Qed.
Lemma totF_chunks f : forall fc i, totA f (free_chunks i fc) = totF f i fc.
Proof.
  induction fc as [|l t IH]; intros i; cbn [free_chunks totF]; [reflexivity|]. rewrite totA_app, IH. f_equal.
  induction l as [|o l IHl]; cbn; [reflexivity|]. rewrite IHl. reflexivity.
Qed.

Theorem C57_conservation : forall ops st live, aops_ok (ainit, []) ops -> arun (ainit, []) ops = Ok (st, live) ->
  adata st <> None -> free_bytes 0 (afc st) + used_bytes (aallocd st) = asize st.
Proof.
  intros ops st live H E Hd. destruct (arun_ok ops ainit [] ainv_init H) as (s & l & E' & V).
  assert (s = st) by congruence. subst s. destruct (adata st) as [d|] eqn:Ed; [|contradiction].
  destruct (v_arena _ _ V d Ed) as (_ & Har). rewrite free_bytes_tot, used_bytes_tot. apply (ar_sum _ _ _ Har).
Qed.
(** Each byte of the arena is in exactly one chunk, no other byte is in any. *)
Theorem C57_each_byte_in_one_chunk : forall ops st live k, aops_ok (ainit, []) ops ->
  arun (ainit, []) ops = Ok (st, live) -> adata st <> None ->
  length (filter (contains k) (chunks st)) = if (0 <=? k) && (k <? asize st) then 1%nat else 0%nat.
Proof.
  intros ops st live k H E Hd. destruct (arun_ok ops ainit [] ainv_init H) as (s & l & E' & V).
  assert (s = st) by congruence. subst s. destruct (adata st) as [d|] eqn:Ed; [|contradiction].
  destruct (v_arena _ _ V d Ed) as (_ & Har). apply Nat2Z.inj. rewrite count_tot. unfold chunks.
  rewrite totA_app, totF_chunks. rewrite (ar_cov _ _ _ Har k). unfold within. destruct (_ && _); reflexivity.
Qed.
Example C57_case : match arun (ainit, []) hist1 with
  | Ok (st, _) => adata st <> None /\ free_bytes 0 (afc st) = 27 /\ used_bytes (aallocd st) = 73 | _ => False end.
Proof. vm_compute. repeat split; discriminate. Qed.
Print Assumptions C57_conservation.
Print Assumptions C57_each_byte_in_one_chunk.

(** ** C58 *)
(** A request is served from the arena. *)
Definition served (st : astate) (n : Z) : bool :=
  match adata st, allocate st n 1 0 with
  | Some d, Ok (_, a) => (aligned d <=? a) && (a <? aligned d + asize st)
  | _, _ => false
  end.
Definition no_reserve (o : aop) : Prop := match o with AReserve _ _ => False | _ => True end.
Definition C58_claim : Prop := forall size d ops st0 st live n,
  aops_ok (ainit, []) (AReserve size d :: ops) -> (forall o, In o ops -> no_reserve o) ->
  reserve ainit size d = Ok st0 -> arun (ainit, []) (AReserve size d :: ops) = Ok (st, live) -> live = [] ->
  served st0 n = true -> served st n = true.
(** reserve 4; four allocations of one byte; freed in the order 1, 2, 0, 3. *)
Definition hist2 : list aop :=
  [AAlloc 1 1 5000; AAlloc 1 1 5000; AAlloc 1 1 5000; AAlloc 1 1 5000; AFree 1025; AFree 1026; AFree 1024; AFree 1027].
Lemma ok_inv {E A} (r : res E A) (P : A -> bool) :
  match r with Ok x => P x | _ => false end = true -> exists x, r = Ok x /\ P x = true.
Proof. destruct r as [x|e| |]; intros H; try discriminate H. exists x. auto. Qed.
Theorem C58_restore_refuted : ~ C58_claim.
Proof.
  intros H.
  destruct (ok_inv (reserve ainit 4 1024) (fun s => served s 3)) as (st0 & E0 & S0); [vm_compute; reflexivity|].
  destruct (ok_inv (arun (ainit, []) (AReserve 4 1024 :: hist2))
    (fun r => negb (served (fst r) 3) && match snd r with [] => true | _ => false end)) as ([st live] & E1 & S1); [vm_compute; reflexivity|].
  cbn [fst snd] in S1. apply andb_prop in S1 as [S1 S2]. destruct live as [|? ?]; [|discriminate S2].
  assert (S3 : served st 3 = true).
  { refine (H 4 1024 hist2 st0 st [] 3 _ _ E0 E1 eq_refl S0).
    - apply aops_okb_ok. vm_compute. reflexivity.
    - intros o Hi. unfold hist2 in Hi. cbn [In] in Hi. repeat destruct Hi as [<-|Hi]; try exact I; contradiction. }
  rewrite S3 in S1. discriminate S1.
Qed.
Print Assumptions C58_restore_refuted.

(** What holds: allocations freed in reverse order (as by scopes) restore the allocator
    exactly. *)
Inductive scopes := SDone | SScope (n sz h : Z) (inner rest : scopes).
Fixpoint sexec (st : astate) (p : scopes) : res astate astate :=
  match p with
  | SDone => Ok st
  | SScope n sz h inner rest =>
      do r <- allocate st n sz h;
      do st <- sexec (fst r) inner;
      do st <- free st (snd r);
      sexec st rest
  end.
Fixpoint scopes_ok (st : astate) (live : list (Z * Z)) (p : scopes) : Prop :=
  match p with
  | SDone => True
  | SScope n sz h inner rest =>
      aop_ok (st, live) (AAlloc n sz h) /\
      forall st1 a, allocate st n sz h = Ok (st1, a) -> scopes_ok st1 ((a, n * sz) :: live) inner /\
      forall st2 st3, sexec st1 inner = Ok st2 -> free st2 a = Ok st3 -> scopes_ok st3 live rest
  end.

Lemma filter_id {A} (l : list (Z * A)) o : ~ In o (map fst l) -> filter (fun c => negb (fst c =? o)) l = l.
Proof.
  induction l as [|[a b] t IH]; intros H; cbn; [reflexivity|]. destruct (Z.eqb_spec a o) as [->|N]; [cbn in H; tauto|].
  cbn. f_equal. apply IH. cbn in H. tauto.
Qed.
Lemma alloc_free st live n sz h st1 a : ainv st live -> aop_ok (st, live) (AAlloc n sz h) ->
  allocate st n sz h = Ok (st1, a) -> free st1 a = Ok st.
Proof.
  intros V Hop E. pose proof Hop as (Hn & Hz & Hb & Hh & Hl & Ho). assert (0 <= n * sz) by nia.
  assert (Hheap : forall s r, (guard (n * sz <? 2 ^ 63) with st;
      Ok (mkA (adata st) (asize st) (afc st) (aallocd st) false ((h, n * sz) :: aheap st), h)) = @Ok astate _ (s, r) ->
      free s r = Ok st).
  { clear E. intros s r E. destruct (Z.ltb_spec (n * sz) (2 ^ 63)); [|lia]. injection E as <- <-.
    assert (Hnot : ~ In h (map fst (aheap st))).
    { intros Hi. apply in_map_iff in Hi as ([b n'] & Eb & Hi). cbn in Eb. subst b.
      specialize (Hl _ (v_heap _ _ V h n' Hi)). unfold apart, span1 in Hl. cbn in Hl. lia. }
    assert (Hst : mkA (adata st) (asize st) (afc st) (aallocd st) false (aheap st) = st).
    { rewrite <- (v_lock _ _ V). destruct st; reflexivity. }
    unfold free. cbn [alocked adata asize afc aallocd aheap]. destruct (Z.eqb_spec h 0); [lia|].
    cbn [existsb fst]. rewrite Z.eqb_refl. cbn [orb filter fst]. rewrite Z.eqb_refl. cbn [negb]. rewrite filter_id by exact Hnot.
    rewrite Hst. destruct (adata st) as [d|] eqn:Ed; [|reflexivity]. destruct (aligned d <=? h); [|reflexivity].
    destruct (find _ _) as [[o lv]|] eqn:Ef; [|reflexivity]. exfalso. apply find_some in Ef as (Hi & Eo).
    apply Z.eqb_eq in Eo. cbn in Eo. destruct (v_arena _ _ V d Ed) as (_ & Har). destruct (arena_in _ _ _ o lv Har Hi).
    specialize (Ho (d, asize st + 32)). unfold arena_block in Ho. rewrite Ed in Ho. specialize (Ho eq_refl).
    pose proof (aligned_range d). pose proof (pow_pos lv). unfold apart, span1 in Ho. cbn in Ho. lia. }
  unfold allocate in E. rewrite (v_lock _ _ V) in E. destruct (adata st) as [d|] eqn:Ed; [|rewrite <- Ed in *; apply Hheap; exact E].
  assert (Eu : u64 (n * sz) = n * sz) by (unfold u64; apply Z.mod_small; lia). rewrite Eu in E.
  destruct (Z.ltb_spec (n * sz) (asize st)) as [Hlt|]; [|apply Hheap; exact E].
  destruct (v_arena _ _ V d Ed) as (Hd & Har).
  destruct (@getAllocationLevel_ok astate (n * sz)) as (lv & El & Hge & _ & _); [lia|]. rewrite El in E. cbn [bind] in E.
  destruct (@split_ok astate astate _ _ _ lv Har) as [(fc' & o & rest & Es & V' & A' & N' & L' & Hlv & Hsr & Hm)|Es];
    rewrite Es in E; cbn [bind] in E; [|apply Hheap; exact E].
  rewrite V' in E. assert (Hex : existsb (fun c => fst c =? o) (aallocd st) = false).
  { destruct (existsb _ _) eqn:X; [|reflexivity]. exfalso. apply existsb_exists in X as ([o' L0] & Hi & Eo).
    apply Z.eqb_eq in Eo. cbn in Eo. subst o'. apply N'. apply in_map_iff. exists (o, L0). auto. }
  rewrite Hex in E. injection E as <- <-. unfold free. cbn [alocked adata asize afc aallocd aheap].
  destruct (arena_in _ _ _ o lv A' (or_introl eq_refl)) as (G1 & G2).
  destruct (Z.leb_spec (aligned d) (aligned d + o)); [|lia]. cbn [find fst].
  replace (aligned d + o - aligned d) with o by lia. rewrite Z.eqb_refl. rewrite !len_setl.
  destruct (Nat.ltb_spec lv (length fc')); [|lia].
  rewrite level_setl_same by lia. rewrite (sinsert_head o rest Hsr).
  assert (Efc : setl (setl fc' lv rest) lv (o :: rest) = fc').
  { apply fc_ext; [rewrite !len_setl; reflexivity|]. intros i. rewrite !level_setl, len_setl.
    destruct (Nat.eqb_spec i lv) as [->|]; [|reflexivity]. destruct (Nat.ltb_spec lv (length fc')); [symmetry; exact V'|lia]. }
  rewrite Efc, L', Hm. cbn [bind filter fst]. rewrite Z.eqb_refl. cbn [negb]. rewrite filter_id by exact N'.
  f_equal. rewrite <- (v_lock _ _ V), <- Ed. destruct st; reflexivity.
Qed.

Theorem C58_restore_partial : forall p st live, ainv st live -> scopes_ok st live p -> sexec st p = Ok st.
Proof.
  induction p as [|n sz h inner IHi rest IHr]; intros st live V H; [reflexivity|].
  destruct H as (Ho & Hk). destruct (step_alloc st live n sz h V Ho) as (st1 & a & E1 & V1).
  destruct (Hk st1 a E1) as (Hin & Hre). pose proof (IHi st1 _ V1 Hin) as E2.
  pose proof (alloc_free st live n sz h st1 a V Ho E1) as E3.
  cbn [sexec]. rewrite E1. cbn [bind fst snd]. rewrite E2. cbn [bind]. rewrite E3. cbn [bind].
  apply (IHr st live V). apply (Hre st1 st E2 E3).
Qed.
(** ... in every state a history leads to. *)
Theorem C58_restore_history_partial : forall ops st live p, aops_ok (ainit, []) ops ->
  arun (ainit, []) ops = Ok (st, live) -> scopes_ok st live p -> sexec st p = Ok st.
Proof.
  intros ops st live p H E Hp. destruct (arun_ok ops ainit [] ainv_init H) as (s & l & E' & V).
  assert (s = st /\ l = live) as [-> ->] by (split; congruence). apply (C58_restore_partial p st live V Hp).
Qed.
Fixpoint scopes_okb (st : astate) (live : list (Z * Z)) (p : scopes) : bool :=
  match p with
  | SDone => true
  | SScope n sz h inner rest =>
      aop_okb (st, live) (AAlloc n sz h) &&
      match allocate st n sz h with
      | Ok (st1, a) => scopes_okb st1 ((a, n * sz) :: live) inner &&
          match sexec st1 inner with
          | Ok st2 => match free st2 a with Ok st3 => scopes_okb st3 live rest | _ => true end
          | _ => true end
      | _ => true end
  end.
Lemma scopes_okb_ok : forall p st live, scopes_okb st live p = true -> scopes_ok st live p.
Proof.
  induction p as [|n sz h inner IHi rest IHr]; intros st live H; cbn [scopes_ok]; [exact I|]. cbn [scopes_okb] in H.
  apply andb_prop in H as [H1 H2]. split; [apply aop_okb_ok; exact H1|]. intros st1 a E. rewrite E in H2.
  apply andb_prop in H2 as [H2 H3]. split; [apply IHi; exact H2|]. intros st2 st3 E2 E3. rewrite E2, E3 in H3. apply IHr. exact H3.
Qed.
Definition prog1 : scopes :=
  SScope 1 1 5000 (SScope 2 4 5100 (SScope 300 1 5200 SDone SDone) (SScope 1 1 5300 SDone SDone)) (SScope 3 2 5400 SDone SDone).
Example C58_case : exists st live, arun (ainit, []) hist1 = Ok (st, live) /\ scopes_ok st live prog1.
Proof.
  destruct (ok_inv (arun (ainit, []) hist1) (fun r => scopes_okb (fst r) (snd r) prog1)) as ([st live] & E & S);
    [vm_compute; reflexivity|]. exists st, live. split; [exact E|]. apply scopes_okb_ok. exact S.
Qed.
Print Assumptions C58_restore_partial.
Print Assumptions C58_restore_history_partial.

(** ** C59 *)
(** After any operation that ended with an exception the next allocation returns. *)
Definition C59_claim : Prop := forall ops st live o st' n,
  aops_ok (ainit, []) ops -> arun (ainit, []) ops = Ok (st, live) -> astep (st, live) o = Throw st' ->
  exists st'' a, allocate st' n 1 9000 = Ok (st'', a).
Theorem C59_failure_refuted : ~ C59_claim.
Proof.
  intros H. set (ops := [AReserve 100 1000; AAlloc 1 1 5000]).
  destruct (ok_inv (arun (ainit, []) ops) (fun r => match astep r (AReserve 200 2000) with
      | Throw st' => match allocate st' 1 1 9000 with Timeout => true | _ => false end | _ => false end))
    as ([st live] & E & S); [vm_compute; reflexivity|].
  destruct (astep (st, live) (AReserve 200 2000)) as [s|st'| |] eqn:Es; try discriminate S.
  destruct (H ops st live (AReserve 200 2000) st' 1) as (s & a & E'); auto.
  - apply aops_okb_ok. vm_compute. reflexivity.
  - rewrite E' in S. discriminate S.
Qed.
(** A request that [new] cannot serve leaves the allocator as it was. *)
Theorem C59_failed_new_partial : forall ops st live n sz h st', aops_ok (ainit, []) ops ->
  arun (ainit, []) ops = Ok (st, live) -> allocate st n sz h = Throw st' -> st' = st.
Proof.
  intros ops st live n sz h st' H E Ea. unfold allocate in Ea.
  assert (G : forall s0, (guard (n * sz <? 2 ^ 63) with s0;
      Ok (mkA (adata s0) (asize s0) (afc s0) (aallocd s0) false ((h, n * sz) :: aheap s0), h)) = Throw st' -> st' = s0).
  { intros s0. destruct (n * sz <? 2 ^ 63); congruence. }
  destruct (alocked st); [discriminate|]. destruct (adata st) as [d|] eqn:Ed; [|apply G; rewrite Ed; exact Ea].
  rewrite <- Ed in Ea.
  destruct (u64 (n * sz) <? asize st); [|apply G; exact Ea].
  destruct (getAllocationLevel (u64 (n * sz))) as [lv|e| |] eqn:El; cbn [bind] in Ea; try discriminate.
  2:{ exfalso. revert El. unfold getAllocationLevel.
      assert (G' : forall f w k x, @alloc_level astate f w k x <> Throw e); [|apply G'].
      induction f as [|f IH]; intros w k x; cbn [alloc_level]; destruct (w <? x); try discriminate. apply IH. }
  destruct (split lv (afc st)) as [r|e| |] eqn:Es; cbn [bind] in Ea; try discriminate.
  - destruct r as [fc|]; [|apply G; exact Ea]. destruct (level fc lv); discriminate.
  - exfalso. revert Es. unfold split. destruct (find_level _ _ _) as [s|]; [|discriminate].
    assert (Hs : forall k s fc e, @split_down astate k s fc <> Throw e).
    { induction k as [|k IH]; intros s0 fc0 e0; cbn [split_down]; [discriminate|].
      destruct (level fc0 s0); [discriminate|]. destruct s0; [discriminate|]. apply IH. }
    destruct (split_down _ _ _) eqn:X; cbn [bind]; try discriminate. exfalso. apply (Hs _ _ _ _ X).
Qed.
Example C59_case : match arun (ainit, []) hist1 with
  | Ok (st, _) => match allocate st (2 ^ 63) 1 0 with Throw _ => True | _ => False end | _ => False end.
Proof. vm_compute. exact I. Qed.
Print Assumptions C59_failure_refuted.
Print Assumptions C59_failed_new_partial.

(** ** C84: a returned chunk holds the elements asked for, for every element count. *)
Definition C84_claim : Prop := forall ops st live n sz h st' a, aops_ok (ainit, []) ops ->
  arun (ainit, []) ops = Ok (st, live) -> 0 <= n < 2 ^ 64 -> 0 < sz -> allocate st n sz h = Ok (st', a) ->
  forall d, adata st = Some d -> aligned d <= a < aligned d + asize st -> a + n * sz <= aligned d + asize st.
Theorem C84_request_size_refuted : ~ C84_claim.
Proof.
  intros H. set (ops := [AReserve 16 1024]).
  destruct (ok_inv (arun (ainit, []) ops) (fun r => match allocate (fst r) (2 ^ 62 + 1) 4 9000, adata (fst r) with
        | Ok (_, a), Some d => (d =? 1024) && (asize (fst r) =? 16) && (a =? 1024) | _, _ => false end))
    as ([st live] & E & Y); [vm_compute; reflexivity|]. cbn [fst] in Y.
  destruct (allocate st (2 ^ 62 + 1) 4 9000) as [[st' a]|e| |] eqn:Ea; try discriminate Y.
  destruct (adata st) as [d|] eqn:Ed; [|discriminate Y].
  rewrite !andb_true_iff in Y. destruct Y as ((Y1 & Y2) & Y3). apply Z.eqb_eq in Y1, Y2, Y3. subst d a.
  assert (X : 1024 + (2 ^ 62 + 1) * 4 <= aligned 1024 + asize st).
  { apply (H ops st live (2 ^ 62 + 1) 4 9000 st' 1024); try lia; try exact E; try exact Ea; try exact Ed.
    - apply aops_okb_ok. vm_compute. reflexivity.
    - change (aligned 1024) with 1024. lia. }
  change (aligned 1024) with 1024 in X. rewrite Y2 in X. lia.
Qed.
(** Below 2^63 bytes it does (any history, any request). *)
Theorem C84_request_size_partial : forall ops st live n sz h st' a, aops_ok (ainit, []) ops ->
  arun (ainit, []) ops = Ok (st, live) -> aop_ok (st, live) (AAlloc n sz h) -> allocate st n sz h = Ok (st', a) ->
  forall d, adata st = Some d -> aligned d <= a < aligned d + asize st -> a + n * sz <= aligned d + asize st.
Proof.
  intros ops st live n sz h st' a H E Ho Ea d Hd Hr. destruct (arun_ok ops ainit [] ainv_init H) as (s & l & E' & V).
  assert (s = st /\ l = live) as [-> ->] by (split; congruence).
  destruct (step_alloc st live n sz h V Ho) as (s' & a' & Ea' & V').
  assert (s' = st' /\ a' = a) as [-> ->] by (split; congruence).
  assert (Hd' : adata st' = Some d /\ asize st' = asize st).
  { unfold allocate in Ea. rewrite (v_lock _ _ V), Hd in Ea.
    destruct (u64 (n * sz) <? asize st).
    - destruct (getAllocationLevel _); cbn [bind] in Ea; try discriminate. destruct (split _ _) as [[fc|]| | |]; cbn [bind] in Ea; try discriminate.
      + destruct (level fc a0); [discriminate|]. injection Ea as <- _. auto.
      + destruct (n * sz <? 2 ^ 63); [|discriminate]. injection Ea as <- _. auto.
    - destruct (n * sz <? 2 ^ 63); [|discriminate]. injection Ea as <- _. auto. }
  destruct Hd' as (Hd1 & Hd2).
  destruct (v_live _ _ V' a (n * sz) (or_introl eq_refl)) as (_ & _ & [(d' & o & L & Hd' & -> & Hi' & Hle)|Hh]).
  - assert (d' = d) by congruence. subst d'. destruct (v_arena _ _ V' d Hd1) as (_ & Har).
    destruct (arena_in _ _ _ o L Har Hi'). lia.
  - pose proof (v_out _ _ V' _ (d, asize st' + 32) Hh) as Hout. unfold arena_block in Hout. rewrite Hd1 in Hout.
    specialize (Hout eq_refl). pose proof (aligned_range d). unfold apart, span1 in Hout. cbn in Hout. lia.
Qed.
Print Assumptions C84_request_size_refuted.
Print Assumptions C84_request_size_partial.

(** ** C85: an address from the arena is aligned for its element type. *)
Definition C85_claim : Prop := forall ops st live n j h st' a, aops_ok (ainit, []) ops ->
  arun (ainit, []) ops = Ok (st, live) -> 0 <= j <= 3 -> 0 < n -> aop_ok (st, live) (AAlloc n (2 ^ j) h) ->
  allocate st n (2 ^ j) h = Ok (st', a) ->
  forall d, adata st = Some d -> aligned d <= a < aligned d + asize st -> (2 ^ j | a).
(** reserve 4; four bytes; the middle two freed and merged; a 16-bit element at offset 1. *)
Theorem C85_alignment_refuted : ~ C85_claim.
Proof.
  intros H.
  set (ops := [AReserve 4 1024; AAlloc 1 1 5000; AAlloc 1 1 5000; AAlloc 1 1 5000; AAlloc 1 1 5000; AFree 1025; AFree 1026]).
  assert (Hops : aops_ok (ainit, []) ops) by (apply aops_okb_ok; vm_compute; reflexivity).
  destruct (ok_inv (arun (ainit, []) ops) (fun r => aop_okb r (AAlloc 1 2 5000) &&
      match allocate (fst r) 1 2 5000, adata (fst r) with
        | Ok (_, a), Some d => (d =? 1024) && (asize (fst r) =? 4) && (a =? 1025) | _, _ => false end))
    as ([st live] & E & Y); [vm_compute; reflexivity|]. cbn [fst] in Y. apply andb_prop in Y as [Y0 Y].
  destruct (allocate st 1 2 5000) as [[st' a]|e| |] eqn:Ea; try discriminate Y.
  destruct (adata st) as [d|] eqn:Ed; [|discriminate Y].
  rewrite !andb_true_iff in Y. destruct Y as ((Y1 & Y2) & Y3). apply Z.eqb_eq in Y1, Y2, Y3. subst d a.
  assert (X : (2 ^ 1 | 1025)).
  { apply (H ops st live 1 1 5000 st' 1025 Hops E) with (d := 1024); try lia; try exact Ea; try exact Ed.
    - apply aop_okb_ok. exact Y0.
    - change (aligned 1024) with 1024. lia. }
  destruct X as (z & X). lia.
Qed.
Print Assumptions C85_alignment_refuted.
