(** Proofs about the selection, the sorting and the measurements of blobs. *)
From Coq Require Import ZArith List Bool Lia Sorted Permutation Floats.SpecFloat.
From Verif Require Import Base Image BaseProofs ImgFun ImgLemmas Double Blob BlobProofs.
Import ListNotations.
Open Scope Z_scope.
Ltac Zify.zify_post_hook ::= Z.div_mod_to_equations.

(** ** Comparison of doubles *)
Definition number (d : double) : Prop := d <> S754_nan.

Lemma SFcompare_number a b : number a -> number b -> exists c, SFcompare a b = Some c.
Proof.
  unfold number. destruct a, b; intros Ha Hb; try congruence; cbn; repeat match goal with |- context [if ?x then _ else _] => destruct x | |- context [match ?x with _ => _ end] => destruct x end; eauto.
Qed.

Lemma dlt_dle a b : number a -> number b -> dlt b a = negb (dle a b).
Proof.
  unfold number, dlt, dle, SFltb, SFleb. destruct a as [sa|sa| |sa ma ea], b as [sb|sb| |sb mb eb]; intros Ha Hb; try congruence;
    cbn [SFcompare]; try (destruct sa; reflexivity); try (destruct sb; reflexivity); try (destruct sa, sb; reflexivity).
  destruct sa, sb; try reflexivity;
    rewrite (Z.compare_antisym ea eb); destruct (ea ?= eb); cbn [CompOpp]; try reflexivity;
    change (Pcompare mb ma Eq) with (Pos.compare mb ma); change (Pcompare ma mb Eq) with (Pos.compare ma mb);
    rewrite (Pos.compare_antisym ma mb); destruct (Pos.compare ma mb); reflexivity.
Qed.


Lemma dlt_irrefl a : dlt a a = false.
Proof.
  unfold dlt, SFltb. destruct a as [s|s| |s m e]; cbn [SFcompare]; try reflexivity; try (destruct s; reflexivity).
  rewrite Z.compare_refl. change (Pcompare m m Eq) with (Pos.compare m m). rewrite Pos.compare_refl. destruct s; reflexivity.
Qed.

Lemma dle_trans a b c : dle a b = true -> dle b c = true -> dle a c = true.
Proof.
  unfold dle, SFleb. destruct a as [sa|sa| |sa ma ea], b as [sb|sb| |sb mb eb], c as [sc|sc| |sc mc ec]; cbn [SFcompare];
    intros H1 H2; try discriminate; try reflexivity; try (destruct sa; discriminate); try (destruct sb; discriminate);
    try (destruct sc; discriminate);
    try (destruct sa, sb, sc; cbn in *; try discriminate; reflexivity);
    try (destruct sa, sb; cbn in *; try discriminate; reflexivity);
    try (destruct sb, sc; cbn in *; try discriminate; reflexivity);
    try (destruct sa, sc; cbn in *; try discriminate; reflexivity).
  destruct sa, sb, sc; try discriminate; try reflexivity;
    change (Pcompare mb ma Eq) with (Pos.compare mb ma) in *; change (Pcompare ma mb Eq) with (Pos.compare ma mb) in *;
    change (Pcompare mb mc Eq) with (Pos.compare mb mc) in *; change (Pcompare ma mc Eq) with (Pos.compare ma mc) in *;
    destruct (Z.compare_spec ea eb), (Z.compare_spec eb ec), (Z.compare_spec ea ec); try discriminate; try reflexivity; try lia;
    destruct (Pos.compare_spec ma mb), (Pos.compare_spec mb mc), (Pos.compare_spec ma mc); cbn in *; try discriminate; try reflexivity; lia.
Qed.

(** ** Selection *)
Definition passes {T} (lt : T -> T -> bool) (p : limits T) (f : blob -> res mem T) (b : blob) : bool :=
  if enabled p then match f b with Ok v => negb (removed lt p v) | _ => false end else true.

Lemma stage_ok {T} c (lt : T -> T -> bool) p f : forall l,
  (enabled p = true -> forall i, In i l -> exists v, f (iblob i) = Ok v) ->
  exists l', stage c lt p f l = Ok l' /\ map iblob l' = filter (passes lt p f) (map iblob l) /\
    forall i', In i' l' -> exists i, In i l /\ iblob i' = iblob i /\
      forall d, ifound i' d = enabled p && criterion_eqb c d || ifound i d.
Proof.
  intros l Hl. unfold stage, passes. destruct (enabled p) eqn:Ee.
  - specialize (Hl eq_refl). induction l as [|i l IH]; cbn [keep].
    + exists []. repeat split; auto. intros i' [].
    + destruct (Hl i (or_introl eq_refl)) as (v & Hv).
      destruct IH as (l' & Hk & Hm & Hf); [intros j Hj; apply Hl; right; exact Hj|].
      rewrite Hv. cbn [bind]. rewrite Hk. cbn [bind]. eexists. split; [reflexivity|]. split.
      * cbn [map filter]. rewrite Hv. destruct (removed lt p v); cbn [negb map iblob computed]; [exact Hm|f_equal; exact Hm].
      * assert (Hf' : forall i', In i' l' -> exists j, In j (i :: l) /\ iblob i' = iblob j /\
            forall d, ifound i' d = true && criterion_eqb c d || ifound j d).
        { intros i' Hi. destruct (Hf i' Hi) as (j & Hj & Hb & Hd). exists j. split; [right; exact Hj|]. auto. }
        destruct (removed lt p v); [exact Hf'|].
        intros i' [<-|Hi]; [|auto]. exists i. split; [left; reflexivity|]. split; reflexivity.
  - exists l. split; [reflexivity|]. split.
    + induction (map iblob l) as [|a k IHk]; cbn; [reflexivity|f_equal; exact IHk].
    + intros i Hi. exists i. repeat split; auto.
Qed.

(** Which criteria have been computed by [find]. *)
Definition evaluated (p : parameters) (c : criterion) : bool :=
  match c with
  | ByCircularity => enabled (pcircularity p)
  | ByElongation => enabled (pelongation p)
  | ByHeight => enabled (pheight p)
  | ByLength => enabled (plength p)
  | BySize => true
  | ByWidth => enabled (pwidth p)
  end.

Definition passes_all (lm : libm) (p : parameters) (b : blob) : bool :=
  passes dlt (pcircularity p) (blob_circularity lm) b && passes dlt (pelongation p) (blob_elongation lm) b &&
  passes Z.ltb (pheight p) (fun b => Ok (blob_height b)) b && passes dlt (plength p) blob_length b &&
  passes Z.ltb (psize p) (fun b => Ok (blob_size b)) b && passes Z.ltb (pwidth p) (fun b => Ok (blob_width b)) b.

Lemma filter_filter {A} (f g : A -> bool) l : filter g (filter f l) = filter (fun a => f a && g a) l.
Proof.
  induction l as [|a l IH]; cbn; [reflexivity|]. destruct (f a); cbn; [|exact IH].
  destruct (g a); [f_equal|]; exact IH.
Qed.

(** The enabled measurements of [b] that can be undefined are defined. *)
Definition measurable (lm : libm) (p : parameters) (b : blob) : Prop :=
  (enabled (pelongation p) = true \/ enabled (plength p) = true -> exists s, extremes (bcontour b) = Ok s).

Lemma length_ok b s : extremes (bcontour b) = Ok s -> exists v, blob_length b = Ok v.
Proof. intros H. unfold blob_length. rewrite H. cbn. eauto. Qed.
Lemma elongation_ok lm b s : extremes (bcontour b) = Ok s -> exists v, blob_elongation lm b = Ok v.
Proof.
  intros H. unfold blob_elongation. destruct (1 <? _); [|eauto]. rewrite H. cbn [bind].
  destruct s as ((d, p), q). eauto.
Qed.

Lemma select_ok lm p bs : (forall b, In b bs -> measurable lm p b) ->
  exists l', select lm p (map fresh bs) = Ok l' /\ map iblob l' = filter (passes_all lm p) bs /\
    forall i, In i l' -> forall c, ifound i c = evaluated p c.
Proof.
  intros Hm.
  assert (Hb : forall i, In i (map fresh bs) -> measurable lm p (iblob i)).
  { intros i Hi. apply in_map_iff in Hi. destruct Hi as (b & <- & Hi). apply Hm, Hi. }
  unfold select.
  assert (Hin : forall (l l' : list info) g, map iblob l' = filter g (map iblob l) ->
     (forall i, In i l -> measurable lm p (iblob i)) -> forall i, In i l' -> measurable lm p (iblob i)).
  { intros l l' g Hg Hl i Hi. apply (in_map iblob) in Hi. rewrite Hg in Hi. apply filter_In in Hi. destruct Hi as (Hi & _).
    apply in_map_iff in Hi. destruct Hi as (j & Ej & Hj). rewrite <- Ej. apply Hl, Hj. }
  destruct (stage_ok ByCircularity dlt (pcircularity p) (blob_circularity lm) (map fresh bs)) as (l1 & E1 & M1 & F1).
  { intros _ i _. unfold blob_circularity. eauto. }
  pose proof (Hin _ _ _ M1 Hb) as B1.
  destruct (stage_ok ByElongation dlt (pelongation p) (blob_elongation lm) l1) as (l2 & E2 & M2 & F2).
  { intros He i Hi. destruct (B1 i Hi) as (s & Hs); auto. eapply elongation_ok; eauto. }
  pose proof (Hin _ _ _ M2 B1) as B2.
  destruct (stage_ok ByHeight Z.ltb (pheight p) (fun b => Ok (blob_height b)) l2) as (l3 & E3 & M3 & F3); [eauto|].
  pose proof (Hin _ _ _ M3 B2) as B3.
  destruct (stage_ok ByLength dlt (plength p) blob_length l3) as (l4 & E4 & M4 & F4).
  { intros He i Hi. destruct (B3 i Hi) as (s & Hs); auto. eapply length_ok; eauto. }
  destruct (stage_ok BySize Z.ltb (psize p) (fun b => Ok (blob_size b)) l4) as (l5 & E5 & M5 & F5); [eauto|].
  destruct (stage_ok ByWidth Z.ltb (pwidth p) (fun b => Ok (blob_width b)) l5) as (l6 & E6 & M6 & F6); [eauto|].
  exists l6. rewrite E1. cbn [bind]. rewrite E2. cbn [bind]. rewrite E3. cbn [bind]. rewrite E4. cbn [bind].
  rewrite E5. cbn [bind]. split; [exact E6|]. split.
  - rewrite M6, M5, M4, M3, M2, M1, !filter_filter, map_map. cbn [fresh iblob]. rewrite map_id.
    apply filter_ext. intros b. unfold passes_all. rewrite !andb_assoc. reflexivity.
  - intros i6 H6 c. destruct (F6 i6 H6) as (i5 & H5 & _ & ->). destruct (F5 i5 H5) as (i4 & H4 & _ & ->).
    destruct (F4 i4 H4) as (i3 & H3 & _ & ->). destruct (F3 i3 H3) as (i2 & H2 & _ & ->).
    destruct (F2 i2 H2) as (i1 & H1 & _ & ->). destruct (F1 i1 H1) as (i0 & H0 & _ & ->).
    apply in_map_iff in H0. destruct H0 as (b & <- & _). cbn [fresh ifound].
    destruct c; cbn; rewrite ?andb_false_r, ?andb_true_r, ?orb_false_r, ?orb_true_r; reflexivity.
Qed.

Lemma select_none lm bs : select lm no_limits (map fresh bs) = Ok (map fresh bs).
Proof. reflexivity. Qed.

(** ** The closed intervals *)
Definition in_Z (p : limits Z) (v : Z) : Prop :=
  (forall a, lmin p = Some a -> a <= v) /\ (forall b, lmax p = Some b -> v <= b).
Definition in_D (p : limits double) (v : double) : Prop :=
  (forall a, lmin p = Some a -> dle a v = true) /\ (forall b, lmax p = Some b -> dle v b = true).
Definition set {T} (p : limits T) : Prop := lmin p <> None \/ lmax p <> None.
Definition numbers (p : limits double) : Prop :=
  (forall a, lmin p = Some a -> number a) /\ (forall b, lmax p = Some b -> number b).

Lemma enabled_set {T} (p : limits T) : enabled p = true <-> set p.
Proof. unfold enabled, set. destruct (lmin p), (lmax p); split; intros; auto; try discriminate; try (left; discriminate); try (right; discriminate). destruct H; congruence. Qed.

Lemma passes_Z p (f : blob -> Z) b : passes Z.ltb p (fun b => Ok (f b)) b = true <-> (set p -> in_Z p (f b)).
Proof.
  rewrite <- enabled_set. unfold passes. destruct (enabled p) eqn:E; [|split; auto; discriminate].
  unfold removed, in_Z. rewrite negb_true_iff, orb_false_iff. split.
  - intros (H1 & H2) _. split; intros v Hv; [rewrite Hv in H2|rewrite Hv in H1]; lia.
  - intros H. specialize (H eq_refl). destruct H as (H1 & H2).
    split; [destruct (lmax p) as [v|]|destruct (lmin p) as [v|]]; auto; apply Z.ltb_ge; auto.
Qed.

Lemma passes_D p f b : numbers p ->
  (forall v, f b = Ok v -> number v) ->
  (passes dlt p f b = true <-> (set p -> exists v, f b = Ok v /\ in_D p v)).
Proof.
  intros (N1 & N2) Hn. rewrite <- enabled_set. unfold passes. destruct (enabled p) eqn:E; [|split; auto; discriminate].
  split.
  - intros H _. destruct (f b) as [v| | |] eqn:Ef; try discriminate. exists v. split; auto.
    specialize (Hn v eq_refl). rewrite negb_true_iff in H. unfold removed in H. apply orb_false_iff in H. destruct H as (H1 & H2).
    split; intros a Ha; [rewrite Ha in H2|rewrite Ha in H1].
    + rewrite dlt_dle in H2 by auto. apply negb_false_iff in H2. exact H2.
    + rewrite dlt_dle in H1 by auto. apply negb_false_iff in H1. exact H1.
  - intros H. destruct (H eq_refl) as (v & Hv & H1 & H2). rewrite Hv. specialize (Hn v Hv).
    rewrite negb_true_iff. unfold removed. apply orb_false_iff.
    split; [destruct (lmax p) as [a|]|destruct (lmin p) as [a|]]; auto; rewrite dlt_dle by auto; apply negb_false_iff; auto.
Qed.

(** ** The largest distance *)
Definition dist2 (p q : Z * Z) : Z := (fst p - fst q) * (fst p - fst q) + (snd p - snd q) * (snd p - snd q).

Lemma distance_ok p q : Z.abs (fst p - fst q) < 2147483648 -> Z.abs (snd p - snd q) < 2147483648 ->
  dist2 p q < 2147483648 -> distance p q = Ok (dist2 p q).
Proof.
  intros H1 H2 H3. unfold distance. unfold dist2 in *.
  assert (E : forall v, Z.abs v < 2147483648 -> s32 (u32 v) = v).
  { intros v Hv. unfold s32, u32, W32. destruct (Z.ltb_spec (v mod 4294967296) 2147483648); lia. }
  rewrite !E by assumption. unfold int32.
  set (a := (fst p - fst q) * (fst p - fst q)) in *. set (b := (snd p - snd q) * (snd p - snd q)) in *.
  assert (0 <= a) by (unfold a; nia). assert (0 <= b) by (unfold b; nia).
  destruct (Z.leb_spec (-2147483648) a); [|lia]. destruct (Z.ltb_spec a 2147483648); [|lia]. cbn [andb bind].
  destruct (Z.leb_spec (-2147483648) b); [|lia]. destruct (Z.ltb_spec b 2147483648); [|lia]. cbn [andb bind].
  destruct (Z.leb_spec (-2147483648) (a + b)); [|lia]. destruct (Z.ltb_spec (a + b) 2147483648); [|lia]. reflexivity.
Qed.

(** All pairs of the list are close enough. *)
Definition close (l : list (Z * Z)) : Prop := forall p q, In p l -> In q l -> dist2 p q < 2147483648.

Lemma dist2_abs p q : dist2 p q < 2147483648 -> Z.abs (fst p - fst q) < 2147483648 /\ Z.abs (snd p - snd q) < 2147483648.
Proof.
  unfold dist2. intros H.
  assert (G : forall a b, a * a + b * b < 2147483648 -> Z.abs a < 2147483648).
  { intros a b Hab. destruct (Z_lt_le_dec (Z.abs a) 2147483648) as [L|L]; [exact L|exfalso].
    pose proof (Z.mul_le_mono_nonneg 1 (Z.abs a) 2147483648 (Z.abs a) ltac:(lia) ltac:(lia) ltac:(lia) L) as M.
    rewrite <- Z.abs_mul in M. rewrite (Z.abs_eq (a * a)) in M by nia. assert (0 <= b * b) by nia. lia. }
  split; [exact (G _ _ H)|]. rewrite Z.add_comm in H. exact (G _ _ H).
Qed.

Lemma dist2_sym p q : dist2 p q = dist2 q p.
Proof. unfold dist2. ring. Qed.
Lemma dist2_nonneg p q : 0 <= dist2 p q.
Proof. unfold dist2. pose proof (Z.square_nonneg (fst p - fst q)). pose proof (Z.square_nonneg (snd p - snd q)). lia. Qed.

Lemma farthest_from_ok p l : forall s, (forall q, In q l -> dist2 p q < 2147483648) ->
  exists s', farthest_from p l s = Ok s' /\ fst (fst s) <= fst (fst s') /\
    (forall q, In q l -> dist2 p q <= fst (fst s')) /\
    (fst (fst s') = fst (fst s) \/ exists q, In q l /\ fst (fst s') = dist2 p q).
Proof.
  induction l as [|a l IH]; intros s Hc; cbn [farthest_from].
  - exists s. repeat split; auto; [lia|]. intros q [].
  - unfold farther. pose proof (Hc a (or_introl eq_refl)) as Ha. destruct (dist2_abs _ _ Ha) as (A1 & A2).
    rewrite distance_ok by assumption. cbn [bind].
    set (s1 := if fst (fst s) <? dist2 p a then (dist2 p a, p, (fst a, fst a)) else s).
    assert (H1 : fst (fst s) <= fst (fst s1) /\ dist2 p a <= fst (fst s1) /\ (fst (fst s1) = fst (fst s) \/ fst (fst s1) = dist2 p a)).
    { unfold s1. destruct (Z.ltb_spec (fst (fst s)) (dist2 p a)); cbn [fst]; lia. }
    destruct (IH s1) as (s' & -> & I1 & I2 & I3); [intros q Hq; apply Hc; right; exact Hq|].
    exists s'. split; [reflexivity|]. split; [lia|]. split.
    + intros q [<-|Hq]; [lia|]. apply I2, Hq.
    + destruct I3 as [I3|(q & Hq & I3)].
      * destruct H1 as (_ & _ & [H1|H1]); [left; lia|]. right. exists a. split; [left; reflexivity|lia].
      * right. exists q. split; [right; exact Hq|exact I3].
Qed.

Lemma farthest_ok l : forall s, close l ->
  exists s', farthest l s = Ok s' /\ fst (fst s) <= fst (fst s') /\
    (0 <= fst (fst s) -> forall p q, In p l -> In q l -> dist2 p q <= fst (fst s')) /\
    (fst (fst s') = fst (fst s) \/ exists p q, In p l /\ In q l /\ fst (fst s') = dist2 p q).
Proof.
  induction l as [|a l IH]; intros s Hc; cbn [farthest].
  - exists s. repeat split; auto; [lia|]. intros _ p q [].
  - destruct (farthest_from_ok a l s) as (s1 & -> & H1 & H2 & H3).
    { intros q Hq. apply Hc; [left; reflexivity|right; exact Hq]. }
    cbn [bind]. destruct (IH s1) as (s' & -> & I1 & I2 & I3).
    { intros p q Hp Hq. apply Hc; right; assumption. }
    exists s'. split; [reflexivity|]. split; [lia|]. split.
    + intros H0 p q [<-|Hp] [<-|Hq].
      * unfold dist2. lia.
      * specialize (H2 q Hq). lia.
      * rewrite dist2_sym. specialize (H2 p Hp). lia.
      * apply I2; auto. lia.
    + destruct I3 as [I3|(p & q & Hp & Hq & I3)].
      * destruct H3 as [H3|(q & Hq & H3)]; [left; lia|]. right. exists a, q. repeat split; [left; auto|right; auto|lia].
      * right. exists p, q. repeat split; auto; right; auto.
Qed.

Lemma extremes_ok l : close l -> exists s, extremes l = Ok s /\
  (forall p q, In p l -> In q l -> dist2 p q <= fst (fst s)) /\
  (l <> [] -> exists p q, In p l /\ In q l /\ fst (fst s) = dist2 p q).
Proof.
  intros Hc. destruct (farthest_ok l (0, (0, 0), (0, 0)) Hc) as (s & Hs & H1 & H2 & H3).
  exists s. split; [exact Hs|]. split; [apply H2; cbn; lia|].
  intros Hne. destruct H3 as [H3|H3]; [|exact H3]. destruct l as [|a l]; [contradiction|].
  exists a, a. repeat split; try (left; reflexivity). cbn [fst] in H3. rewrite H3. unfold dist2. lia.
Qed.

(** ** Sorting *)
Definition vnumber (v : value) : Prop := match v with VInt _ => True | VDouble d => number d end.
Definition vsame (a b : value) : Prop :=
  match a, b with VInt _, VInt _ => True | VDouble _, VDouble _ => True | _, _ => False end.
Definition vle (a b : value) : Prop :=
  match a, b with VInt a, VInt b => a <= b | VDouble a, VDouble b => dle a b = true | _, _ => False end.

Lemma vlt_vle a b : vsame a b -> vnumber a -> vnumber b -> (vlt b a = false <-> vle a b).
Proof.
  destruct a, b; cbn; intros S A B; try contradiction.
  - lia.
  - rewrite dlt_dle by assumption. rewrite negb_false_iff. reflexivity.
Qed.

Lemma vle_trans a b c : vle a b -> vle b c -> vle a c.
Proof. destruct a, b, c; cbn; try tauto; try lia. apply dle_trans. Qed.

(** What std::sort requires of the comparison: a strict weak order on the elements. *)
Record strict_weak {A} (lt : A -> A -> bool) (l : list A) : Prop := mkStrict {
  sw_irrefl : forall a, In a l -> lt a a = false;
  sw_asym : forall a b, In a l -> In b l -> lt a b = true -> lt b a = false;
  sw_trans : forall a b c, In a l -> In b l -> In c l -> lt a b = true -> lt b c = true -> lt a c = true;
  sw_incomp : forall a b c, In a l -> In b l -> In c l -> lt b a = false -> lt c b = false -> lt c a = false
}.
(** What std::sort guarantees then. *)
Definition sorts {A} (srt : (A -> A -> bool) -> list A -> list A) : Prop :=
  forall lt l, strict_weak lt l ->
    Permutation l (srt lt l) /\ StronglySorted (fun a b => lt b a = false) (srt lt l).

Lemma getters_ok lm c l : (forall i, In i l -> ifound i c = true /\ exists v, compute lm c (iblob i) = Ok v) ->
  exists vs, getters lm c l = Ok vs /\ map snd vs = l /\ forall a, In a vs -> compute lm c (iblob (snd a)) = Ok (fst a).
Proof.
  induction l as [|i l IH]; intros H; cbn [getters].
  - exists []. repeat split. intros a [].
  - destruct (H i (or_introl eq_refl)) as (Hf & v & Hv). unfold getter. rewrite Hf, Hv. cbn [bind].
    destruct IH as (vs & -> & Hm & Hc); [intros j Hj; apply H; right; exact Hj|]. cbn [bind].
    eexists. split; [reflexivity|]. cbn [map snd]. split; [f_equal; exact Hm|].
    intros a [<-|Ha]; [exact Hv|auto].
Qed.

Lemma compute_same lm c b b' v v' : compute lm c b = Ok v -> compute lm c b' = Ok v' -> vsame v v'.
Proof.
  destruct c; cbn; unfold blob_circularity; intros H H';
    repeat match goal with
           | H : bind ?r _ = Ok _ |- _ => destruct r; cbn [bind] in H; try discriminate
           | H : Ok _ = Ok _ |- _ => injection H as <-
           end; cbn; auto.
Qed.

Lemma greater_strict lm c vs :
  (forall a, In a vs -> compute lm c (iblob (snd a)) = Ok (fst a) /\ vnumber (fst a)) ->
  strict_weak (fun a b : value * info => vlt (fst b) (fst a)) vs.
Proof.
  intros H.
  assert (K : forall a b, In a vs -> In b vs -> (vlt (fst b) (fst a) = false <-> vle (fst a) (fst b))).
  { intros a b Ha Hb. destruct (H a Ha) as (A1 & A2). destruct (H b Hb) as (B1 & B2).
    apply vlt_vle; auto. eapply compute_same; eauto. }
  assert (T : forall a b, In a vs -> In b vs -> vle (fst a) (fst b) \/ vle (fst b) (fst a)).
  { intros a b Ha Hb. destruct (H a Ha) as (A1 & A2). destruct (H b Hb) as (B1 & B2).
    pose proof (compute_same _ _ _ _ _ _ A1 B1) as S. destruct (fst a) as [u|u], (fst b) as [v|v]; cbn in *; try contradiction; [lia|].
    destruct (dle u v) eqn:E1; auto. destruct (dle v u) eqn:E2; auto.
    pose proof (dlt_dle u v A2 B2) as D1. pose proof (dlt_dle v u B2 A2) as D2. rewrite E1 in D1. rewrite E2 in D2.
    exfalso. revert D1 D2. unfold dlt, SFltb. clear.
    destruct u as [su|su| |su mu eu], v as [sv|sv| |sv mv ev]; cbn [SFcompare negb];
      try (destruct su; discriminate); try (destruct sv; discriminate); try (destruct su, sv; discriminate); try discriminate.
    destruct su, sv; try discriminate; rewrite (Z.compare_antisym eu ev); destruct (eu ?= ev); cbn [CompOpp]; try discriminate;
      change (Pcompare mu mv Eq) with (Pos.compare mu mv); change (Pcompare mv mu Eq) with (Pos.compare mv mu);
      rewrite (Pos.compare_antisym mu mv); destruct (Pos.compare mu mv); discriminate. }
  assert (N : forall a b, In a vs -> In b vs -> vlt (fst b) (fst a) = true -> vle (fst b) (fst a) /\ ~ vle (fst a) (fst b)).
  { intros a b Ha Hb Hlt. assert (~ vle (fst a) (fst b)) by (intros X; apply K in X; auto; congruence).
    destruct (T a b Ha Hb); tauto. }
  constructor.
  - intros a Ha. apply K; auto. destruct (T a a Ha Ha); auto.
  - intros a b Ha Hb Hlt. apply K; auto. apply N; auto.
  - intros a b e Ha Hb He H1 H2. destruct (vlt (fst e) (fst a)) eqn:E; auto. apply K in E; auto.
    destruct (N a b Ha Hb H1) as (N1 & N2). destruct (N b e Hb He H2) as (N3 & N4).
    exfalso. apply N2. eapply vle_trans; eauto.
  - intros a b e Ha Hb He H1 H2. apply K in H1; auto. apply K in H2; auto. apply K; auto. eapply vle_trans; eauto.
Qed.

Lemma sort_ok srt lm c l : sorts srt ->
  (forall i, In i l -> ifound i c = true /\ exists v, compute lm c (iblob i) = Ok v /\ vnumber v) ->
  exists l', sort srt lm c l = Ok l' /\ Permutation l l' /\
    StronglySorted (fun a b => exists u v, compute lm c (iblob a) = Ok u /\ compute lm c (iblob b) = Ok v /\ vle v u) l'.
Proof.
  intros Hs H. unfold sort. destruct (Nat.ltb_spec (length l) 2) as [L|L].
  - exists l. repeat split; auto. destruct l as [|a [|b l]]; cbn in L; try lia; repeat constructor.
  - destruct (getters_ok lm c l) as (vs & -> & Hm & Hc).
    { intros i Hi. destruct (H i Hi) as (F & v & V & _). eauto. }
    cbn [bind]. eexists. split; [reflexivity|].
    assert (Hv : forall a, In a vs -> compute lm c (iblob (snd a)) = Ok (fst a) /\ vnumber (fst a)).
    { intros a Ha. split; [auto|]. assert (Hl : In (snd a) l) by (rewrite <- Hm; apply in_map, Ha).
      destruct (H _ Hl) as (_ & v & V & N). rewrite (Hc a Ha) in V. injection V as ->. exact N. }
    destruct (Hs _ _ (greater_strict lm c vs Hv)) as (P & S). split.
    + rewrite <- Hm at 1. apply Permutation_map, P.
    + assert (Hin : forall a, In a (srt (fun a b => vlt (fst b) (fst a)) vs) -> In a vs).
      { intros a. apply Permutation_in, Permutation_sym, P. }
      revert S Hin. generalize (srt (fun a b : value * info => vlt (fst b) (fst a)) vs).
      intros r S Hin. induction S as [|a r S IH F]; cbn [map]; constructor.
      * apply IH. intros b Hb. apply Hin. right; auto.
      * apply Forall_map. rewrite Forall_forall in *. intros b Hb. specialize (F b Hb).
        destruct (Hv a) as (A1 & A2); [apply Hin; left; auto|]. destruct (Hv b) as (B1 & B2); [apply Hin; right; auto|].
        exists (fst a), (fst b). repeat split; auto.
        apply vlt_vle; auto. eapply compute_same; eauto.
Qed.

Lemma max_element_ok vs : forall a,
  (forall b e, In b (a :: vs) -> In e (a :: vs) -> vlt (fst b) (fst e) = false -> vle (fst e) (fst b)) ->
  (forall b e, In b (a :: vs) -> In e (a :: vs) -> vlt (fst b) (fst e) = true -> vle (fst b) (fst e)) ->
  In (max_element a vs) (a :: vs) /\ forall b, In b (a :: vs) -> vle (fst b) (fst (max_element a vs)).
Proof.
  induction vs as [|e vs IH]; intros a K1 K2; cbn [max_element].
  - split; [left; reflexivity|]. intros b [<-|[]]. destruct (vlt (fst a) (fst a)) eqn:E; [apply K2|apply K1]; auto; left; auto.
  - set (a' := if vlt (fst a) (fst e) then e else a).
    assert (Ha' : In a' [a; e]) by (unfold a'; destruct (vlt _ _); cbn; auto).
    assert (Hsub : forall b, In b (a' :: vs) -> In b (a :: e :: vs)).
    { intros b [<-|Hb]; [|right; right; exact Hb]. destruct Ha' as [<-|[<-|[]]]; cbn; auto. }
    destruct (IH a') as (I1 & I2); [intros; apply K1; auto|intros; apply K2; auto|].
    split; [auto|].
    assert (Hb1 : vle (fst a) (fst a') /\ vle (fst e) (fst a')).
    { unfold a'. destruct (vlt (fst a) (fst e)) eqn:E.
      - split; [apply K2; auto; cbn; auto|]. destruct (vlt (fst e) (fst e)) eqn:E2; [apply K2|apply K1]; auto; cbn; auto.
      - split; [|apply K1; auto; cbn; auto]. destruct (vlt (fst a) (fst a)) eqn:E2; [apply K2|apply K1]; auto; cbn; auto. }
    assert (Hmx : vle (fst a') (fst (max_element a' vs))) by (apply I2; left; reflexivity).
    intros b [<-|[<-|Hb]].
    + eapply vle_trans; [apply Hb1|exact Hmx].
    + eapply vle_trans; [apply Hb1|exact Hmx].
    + apply I2. right; auto.
Qed.

Lemma best_ok lm c l : l <> [] ->
  (forall i, In i l -> ifound i c = true /\ exists v, compute lm c (iblob i) = Ok v /\ vnumber v) ->
  exists i v, getBestBlob lm c l = Ok i /\ In i l /\ compute lm c (iblob i) = Ok v /\
    forall j, In j l -> exists u, compute lm c (iblob j) = Ok u /\ vle u v.
Proof.
  intros Hne H. destruct l as [|i1 [|i2 l]]; [contradiction| |].
  - destruct (H i1 (or_introl eq_refl)) as (_ & v & V & N). exists i1, v. cbn. repeat split; auto.
    intros j [<-|[]]. exists v. split; auto. destruct v; cbn in *; [lia|].
    pose proof (dlt_dle d d N N) as D. rewrite dlt_irrefl in D. destruct (dle d d); [reflexivity|discriminate].
  - unfold getBestBlob. remember (i1 :: i2 :: l) as k eqn:Ek.
    destruct (getters_ok lm c k) as (vs & -> & Hm & Hc).
    { intros i Hi. destruct (H i Hi) as (F & v & V & _). eauto. }
    cbn [bind]. destruct vs as [|a vs]; [rewrite Ek in Hm; discriminate|].
    assert (Hv : forall e, In e (a :: vs) -> compute lm c (iblob (snd e)) = Ok (fst e) /\ vnumber (fst e)).
    { intros e He. split; [auto|]. assert (Hl : In (snd e) k) by (rewrite <- Hm; apply in_map, He).
      destruct (H _ Hl) as (_ & v & V & N). rewrite (Hc e He) in V. injection V as ->. exact N. }
    pose proof (greater_strict lm c (a :: vs) Hv) as SW.
    assert (K : forall b e, In b (a :: vs) -> In e (a :: vs) -> (vlt (fst b) (fst e) = false <-> vle (fst e) (fst b))).
    { intros b e Hb He. destruct (Hv b Hb) as (A1 & A2). destruct (Hv e He) as (B1 & B2).
      apply vlt_vle; auto. eapply compute_same; eauto. }
    destruct (max_element_ok vs a) as (M1 & M2).
    + intros b e Hb He. apply K; auto.
    + intros b e Hb He Hlt. apply K; auto. apply (sw_asym _ _ SW e b He Hb Hlt).
    + exists (snd (max_element a vs)), (fst (max_element a vs)). split; [reflexivity|].
      split; [rewrite <- Hm; apply in_map, M1|]. split; [apply Hc, M1|].
      intros j Hj. rewrite <- Hm in Hj. apply in_map_iff in Hj. destruct Hj as (b & <- & Hb).
      exists (fst b). split; [apply Hc, Hb|apply M2, Hb].
Qed.

(** ** The centre *)
Lemma int_sum_ok l : (forall v, In v l -> 0 <= v) -> fold_right Z.add 0 l < 2147483648 ->
  int_sum l = fold_right Z.add 0 l.
Proof.
  intros Hv Hs. unfold int_sum.
  assert (G : forall l a, 0 <= a -> (forall v, In v l -> 0 <= v) -> a + fold_right Z.add 0 l < 2147483648 ->
     fold_left (fun a v => u32 (a + v)) l a = a + fold_right Z.add 0 l /\ 0 <= fold_right Z.add 0 l).
  { clear. induction l as [|v l IH]; intros a Ha Hv Hs; cbn [fold_left fold_right] in *; [lia|].
    assert (0 <= v) by (apply Hv; left; auto).
    assert (0 <= fold_right Z.add 0 l).
    { clear - Hv. induction l as [|u l IH]; cbn; [lia|]. assert (0 <= u) by (apply Hv; right; left; auto).
      assert (0 <= fold_right Z.add 0 l) by (apply IH; intros x [<-|Hx]; apply Hv; [left; auto|right; right; auto]). lia. }
    rewrite u32_small by (unfold W32; lia). destruct (IH (a + v)) as (-> & _); auto; try lia.
    - intros x Hx. apply Hv. right; auto.
    }
  destruct (G l 0) as (E & _); auto; try lia. rewrite E. unfold s32. destruct (Z.ltb_spec (0 + fold_right Z.add 0 l) 2147483648); lia.
Qed.
