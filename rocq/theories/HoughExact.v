(** The Hough transform in exact arithmetic finds a strip with the most points. *)
From Coq Require Import ZArith List Bool Lia Reals Lra Permutation.
From Verif Require Import Base BaseProofs Arith Math HaarProofs HoughProofs GaussExact.
Import ListNotations.
Open Scope Z_scope.

(** ** Counting in sorted lists *)

Lemma filter_all {X} (f : X -> bool) l : (forall x, In x l -> f x = true) -> filter f l = l.
Proof. induction l as [|x l IH]; intros H; [reflexivity|]. cbn [filter]. rewrite H by (left; reflexivity). f_equal. apply IH. intros. apply H. right. assumption. Qed.
Lemma filter_none {X} (f : X -> bool) l : (forall x, In x l -> f x = false) -> filter f l = [].
Proof. induction l as [|x l IH]; intros H; [reflexivity|]. cbn [filter]. rewrite H by (left; reflexivity). apply IH. intros. apply H. right. assumption. Qed.
Lemma filter_le {X} (f : X -> bool) l : (length (filter f l) <= length l)%nat.
Proof. induction l as [|x l IH]; cbn [filter]; [lia|]. destruct (f x); cbn [length]; lia. Qed.
Lemma filter_le2 {X} (f g : X -> bool) l : (forall x, In x l -> f x = true -> g x = true) ->
  (length (filter f l) <= length (filter g l))%nat.
Proof.
  induction l as [|x l IH]; intros H; [cbn; lia|]. cbn [filter].
  assert (K : (length (filter f l) <= length (filter g l))%nat) by (apply IH; intros; apply H; [right|]; assumption).
  destruct (f x) eqn:F; [rewrite (H x (or_introl eq_refl) F); cbn [length]; lia|]. destruct (g x); cbn [length]; lia.
Qed.
Lemma filter_map {X Y} (f : Y -> bool) (h : X -> Y) l : length (filter f (map h l)) = length (filter (fun x => f (h x)) l).
Proof. induction l as [|x l IH]; [reflexivity|]. cbn [map filter]. destruct (f (h x)); cbn [length]; auto. Qed.
Lemma filter_perm {X} (f : X -> bool) l l' : Permutation l l' -> length (filter f l) = length (filter f l').
Proof.
  induction 1; cbn [filter]; auto; try congruence.
  - destruct (f x); cbn [length]; auto.
  - destruct (f x), (f y); reflexivity.
Qed.
Lemma split3 {X} (l : list X) p c : (p + c <= length l)%nat -> l = firstn p l ++ firstn c (skipn p l) ++ skipn (p + c) l.
Proof.
  intros H. assert (K : forall p (l : list X), skipn c (skipn p l) = skipn (p + c) l).
  { clear. induction p as [|p IH]; intros l; [reflexivity|]. destruct l as [|x l]; [cbn; apply skipn_nil|]. apply IH. }
  rewrite <- K.
  rewrite firstn_skipn, firstn_skipn. reflexivity.
Qed.
Lemma in_firstn {X} (l : list X) d x n : In x (firstn n l) -> exists i, (i < n)%nat /\ (i < length l)%nat /\ x = nth i l d.
Proof.
  intros H. apply (In_nth _ _ d) in H as (i & Hi & <-). rewrite firstn_length in Hi. exists i. split; [lia|]. split; [lia|].
  rewrite <- (firstn_skipn n l) at 2. rewrite app_nth1 by (rewrite firstn_length; lia). reflexivity.
Qed.
Lemma in_skipn {X} (l : list X) d x n : In x (skipn n l) -> exists i, (n <= i)%nat /\ (i < length l)%nat /\ x = nth i l d.
Proof.
  intros H. apply (In_nth _ _ d) in H as (i & Hi & <-). rewrite skipn_length in Hi. exists (n + i)%nat. split; [lia|]. split; [lia|].
  rewrite <- (firstn_skipn n l) at 2. rewrite app_nth2 by (rewrite firstn_length; lia). f_equal. rewrite firstn_length. lia.
Qed.
(** all elements with the property have their index in [p, p + c) *)
Lemma count_at_most {X} (f : X -> bool) (l : list X) d p c : (p + c <= length l)%nat ->
  (forall i, (i < length l)%nat -> f (nth i l d) = true -> (p <= i < p + c)%nat) -> (length (filter f l) <= c)%nat.
Proof.
  intros H Hf. rewrite (split3 l p c H), !filter_app, !app_length.
  rewrite (filter_none f (firstn p l)), (filter_none f (skipn (p + c) l)); [cbn [length]| |].
  - pose proof (filter_le f (firstn c (skipn p l))) as K. rewrite firstn_length in K. lia.
  - intros x Hx. apply (in_skipn l d) in Hx as (i & Hi & Hl & ->). destruct (f (nth i l d)) eqn:F; [|reflexivity]. apply Hf in F; lia.
  - intros x Hx. apply (in_firstn l d) in Hx as (i & Hi & Hl & ->). destruct (f (nth i l d)) eqn:F; [|reflexivity]. apply Hf in F; lia.
Qed.
(** all elements with an index in [p, p + c) have the property *)
Lemma count_at_least {X} (f : X -> bool) (l : list X) d p c : (p + c <= length l)%nat ->
  (forall i, (p <= i < p + c)%nat -> f (nth i l d) = true) -> (c <= length (filter f l))%nat.
Proof.
  intros H Hf. rewrite (split3 l p c H), !filter_app, !app_length.
  rewrite (filter_all f (firstn c (skipn p l))); [rewrite firstn_length, skipn_length; lia|].
  intros x Hx. apply (in_firstn _ d) in Hx as (i & Hi & Hl & ->). rewrite skipn_length in Hl.
  specialize (Hf (p + i)%nat ltac:(lia)). rewrite <- Hf. f_equal.
  rewrite <- (firstn_skipn p l) at 2. rewrite app_nth2 by (rewrite firstn_length; lia). f_equal. rewrite firstn_length. lia.
Qed.

Definition sortedR (l : list R) : Prop := forall i j, (i <= j)%nat -> (j < length l)%nat -> (nth i l 0 <= nth j l 0)%R.
(** std::sort *)
Definition sorts (sort : list R -> res unit (list R)) : Prop :=
  forall l, exists l', sort l = Ok l' /\ Permutation l l' /\ sortedR l'.

Lemma first_index (f : R -> bool) l : (exists x, In x l /\ f x = true) ->
  exists p, (p < length l)%nat /\ f (nth p l 0%R) = true /\ forall i, (i < p)%nat -> f (nth i l 0%R) = false.
Proof.
  induction l as [|y l IH]; intros (x & Hx & Hf); [destruct Hx|]. destruct (f y) eqn:Fy.
  - exists O. cbn [length nth]. split; [lia|]. split; [exact Fy|]. lia.
  - destruct IH as (p & H1 & H2 & H3).
    + destruct Hx as [->|Hx]; [congruence|]. eauto.
    + exists (S p). cbn [length nth]. split; [lia|]. split; [exact H2|]. intros [|i] Hi; [exact Fy|apply H3; lia].
Qed.
Lemma last_index (f : R -> bool) l : (exists x, In x l /\ f x = true) ->
  exists q, (q < length l)%nat /\ f (nth q l 0%R) = true /\ forall i, (q < i < length l)%nat -> f (nth i l 0%R) = false.
Proof.
  induction l as [|y l IH]; intros (x & Hx & Hf); [destruct Hx|].
  destruct (existsb f l) eqn:Ex.
  - apply existsb_exists in Ex. destruct IH as (q & H1 & H2 & H3); [exact Ex|]. exists (S q). cbn [length nth].
    split; [lia|]. split; [exact H2|]. intros [|i] Hi; [lia|apply H3; lia].
  - exists O. assert (N : forall z, In z l -> f z = false).
    { intros z Hz. destruct (f z) eqn:Fz; [|reflexivity]. exfalso. rewrite <- not_true_iff_false in Ex. apply Ex, existsb_exists. eauto. }
    destruct Hx as [->|Hx]; [|rewrite N in Hf by exact Hx; discriminate Hf]. cbn [length nth]. split; [lia|]. split; [exact Hf|].
    intros [|i] Hi; [lia|]. apply N, nth_In. lia.
Qed.
(** If a contiguous window within [range] holds at most c elements, so does every strip. *)
Lemma strip_count range l c : sortedR l -> 0 <= c ->
  (forall p k, 0 <= p <= k -> k < Z.of_nat (length l) -> (nth (Z.to_nat k) l 0 <= range + nth (Z.to_nat p) l 0)%R -> k + 1 - p <= c) ->
  forall f : R -> bool, (forall x y, In x l -> In y l -> f x = true -> f y = true -> (y <= range + x)%R) ->
  Z.of_nat (length (filter f l)) <= c.
Proof.
  intros S Hc Hw f Hf. destruct (existsb f l) eqn:Ex.
  - apply existsb_exists in Ex. destruct (first_index f l Ex) as (p & P1 & P2 & P3). destruct (last_index f l Ex) as (q & Q1 & Q2 & Q3).
    assert (Hpq : (p <= q)%nat). { destruct (le_lt_dec p q) as [h|h]; [exact h|]. rewrite P3 in Q2 by exact h. discriminate Q2. }
    assert (K : (length (filter f l) <= q + 1 - p)%nat).
    { apply (count_at_most f l 0%R p (q + 1 - p)); [lia|]. intros i Hi Fi. split.
      - destruct (le_lt_dec p i) as [h|h]; [exact h|]. rewrite P3 in Fi by exact h. discriminate Fi.
      - destruct (le_lt_dec i q) as [h|h]; [lia|]. rewrite Q3 in Fi by lia. discriminate Fi. }
    pose proof (Hw (Z.of_nat p) (Z.of_nat q) ltac:(lia) ltac:(lia)) as W. rewrite !Nat2Z.id in W.
    pose proof (W (Hf _ _ (nth_In l 0%R P1) (nth_In l 0%R Q1) P2 Q2)). lia.
  - rewrite (filter_none f l); [cbn; lia|]. intros x Hx. destruct (f x) eqn:F; [|reflexivity]. exfalso.
    rewrite <- not_true_iff_false in Ex. apply Ex, existsb_exists. eauto.
Qed.

Lemma ordered_exact range l : sortedR l -> ordered_by exact range l.
Proof.
  intros S. split; intros i j k H1 H2 H3 H; change (carrier exact) with R in *; cbn [alt aadd exact aZ] in *; apply Rltb_true in H;
    unfold Rltb; destruct (Rlt_dec _ _) as [|h]; auto; exfalso; apply h; clear h.
  - pose proof (S (Z.to_nat i) (Z.to_nat j) ltac:(lia) ltac:(lia)). change (IZR 0) with 0%R in *. lra.
  - pose proof (S (Z.to_nat i) (Z.to_nat j) ltac:(lia) ltac:(lia)). change (IZR 0) with 0%R in *. lra.
Qed.

Section EXACT.
Variable sort : list R -> res unit (list R).
Hypothesis Hsort : sorts sort.
Notation L := (exact_lib sort).

Lemma angle_seq_exact (start step : R) k : angle_seq exact start step k = (start - INR k * step)%R.
Proof. induction k as [|k IH]; cbn [angle_seq]; [|rewrite IH, S_INR]; cbn [asub exact INR]; match goal with |- @eq _ ?a ?b => change (@eq R a b) end; ring. Qed.

(** signed distance of a point from the line through the origin that the angle a describes *)
Definition dist (a : R) (p : R * R) : R := (fst p * sin a + snd p * cos a)%R.

Lemma sort_fine_exact input range a : (0 <= range)%R -> sort_fine exact L input range a.
Proof.
  intros Hr. destruct (Hsort (ds_at exact L input a)) as (l' & E & P & S). exists l'. split; [exact E|]. split.
  - etransitivity; [symmetry; exact (Permutation_length P)|]. unfold ds_at. apply map_length.
  - intros x _. cbn [alt aadd exact]. unfold Rltb. destruct (Rlt_dec _ _); [lra|reflexivity].
Qed.

(** The largest of the three limits of lines 40-57. *)
Lemma Rltb_max x y : (if Rltb x y then y else x) = Rmax x y.
Proof. unfold Rltb, Rmax. destruct (Rlt_dec x y), (Rle_dec x y); try reflexivity; lra. Qed.

Lemma hough_exact (input : list (R * R)) (a0 tol step line : R) on0 off0 n :
  2 <= Z.of_nat (length input) < W64 ->
  let step' := Rmax step (lmin_angle L) in
  let tol' := Rmax (Rmax tol (lmin_angle L)) step' in
  let line' := Rmax line (lmin_tol L) in
  exact_steps tol' step' = Some n -> 0 <= n < INT_MAX ->
  exists bid avg on off, runHoughTransform exact L input a0 tol step line on0 off0 = Ok (true, on, off) /\
    - n <= bid <= n /\
    let a := (- (a0 + step' * IZR bid))%R in
    let off_ := fun p => Rltb (dist a p) (avg - line') || Rltb (avg + line') (dist a p) in
    on = filter (fun p => negb (off_ p)) input /\ off = filter off_ input /\
    forall id f, - n <= id <= n ->
      (forall p q, In p input -> In q input -> f p = true -> f q = true ->
         (dist (- (a0 + step' * IZR id)) p <= 2 * line' + dist (- (a0 + step' * IZR id)) q)%R) ->
      (length (filter f input) <= length on)%nat.
Proof.
  intros Hlen step' tol' line' Es Hn. unfold runHoughTransform.
  assert (E0 : (Z.of_nat (@length (carrier exact * carrier exact) input) <? 2) = false) by (apply Z.ltb_ge; exact (proj1 Hlen)).
  rewrite E0. cbn [alt exact]. rewrite !Rltb_max.
  change (Rmax step (lmin_angle L)) with step'. change (Rmax (Rmax tol (lmin_angle L)) step') with tol'.
  change (Rmax line (lmin_tol L)) with line'. change (lsteps L) with exact_steps. rewrite Es.
  assert (Hline : (0 < line')%R) by (apply Rlt_le_trans with (2 := Rmax_r line (lmin_tol L)); cbn; lra).
  set (range := amul exact line' (aZ exact 2)).
  assert (Hrange : range = (2 * line')%R) by (unfold range; cbn; ring).
  assert (Hlen' : 1 <= Z.of_nat (length input) < W64) by lia.
  destruct (search_ok exact L input range Hlen' a0 step' n Hn) as (bid & hi & ds & i & E & Hb & St & Opt).
  { intros k _. apply sort_fine_exact. rewrite Hrange. lra. }
  set (seq := fun id => angle_seq exact (aopp exact (asub exact a0 (amul exact step' (aZ exact n)))) step' (Z.to_nat (id + n))) in *.
  assert (Eseq : forall id, - n <= id <= n -> seq id = (- (a0 + step' * IZR id))%R).
  { intros id Hid. unfold seq. rewrite angle_seq_exact. rewrite INR_IZR_INZ, Z2Nat.id by lia. rewrite plus_IZR. cbn [aopp asub amul aZ exact]. match goal with |- @eq _ ?u ?v => change (@eq R u v) end. ring. }
  rewrite E. cbn [bind]. rewrite partition_filter. cbn [app fst snd].
  set (a := (- (a0 + step' * IZR bid))%R). set (avg := middle exact ds i hi).
  eexists bid, avg, _, _. split; [reflexivity|]. split; [exact Hb|]. cbv zeta.
  split; [reflexivity|]. split; [reflexivity|]. intros id f Hid Hf. fold a.
  set (g := fun d : R => negb (Rltb d (avg - line') || Rltb (avg + line') d)).
  (* the chosen strip *)
  assert (Best : hi <= Z.of_nat (length (filter (fun p => g (dist a p)) input))).
  { change (angle_seq exact _ step' (Z.to_nat (bid + n))) with (seq bid) in St. rewrite (Eseq bid Hb) in St. fold a in St.
    destruct St as (Sd & I1 & I2 & I3 & W).
    destruct (Hsort (ds_at exact L input a)) as (l' & Sl & P & So). change (lsort L) with sort in Sd. rewrite Sl in Sd. injection Sd as ->. change (@length (carrier exact)) with (@length R) in *.
    destruct (W (ordered_exact range ds So)) as (W1 & _).
    rewrite <- (filter_map g (dist a) input). change (map (dist a) input) with (ds_at exact L input a). rewrite (filter_perm g _ ds P).
    assert (K : (Z.to_nat hi <= length (filter g ds))%nat); [|lia].
    apply (count_at_least g ds 0%R (Z.to_nat i) (Z.to_nat hi)); [lia|]. intros k Hk.
    pose proof (W1 (i + hi - 1) ltac:(lia)) as Wl. apply Rltb_false in Wl.
    pose proof (So (Z.to_nat i) k ltac:(lia) ltac:(lia)) as A1. pose proof (So k (Z.to_nat (i + hi - 1)) ltac:(lia) ltac:(lia)) as A2.
    set (u := @nth R (Z.to_nat i) ds 0%R) in *. set (v := @nth R (Z.to_nat (i + hi - 1)) ds 0%R) in *. set (x := @nth R k ds 0%R) in *.
    assert (Ea : avg = ((v + u) / 2)%R) by reflexivity. change (v <= range + u)%R in Wl. rewrite Hrange in Wl.
    change (g x = true). unfold g. rewrite Ea. apply negb_true_iff, orb_false_iff. unfold Rltb.
    clear - Wl A1 A2. split; destruct (Rlt_dec _ _); auto; exfalso; lra. }
  destruct (Opt id Hid) as (ds' & i' & c' & St' & Hc'). change (angle_seq exact _ step' (Z.to_nat (id + n))) with (seq id) in St'.
  rewrite (Eseq id Hid) in St'. set (a' := (- (a0 + step' * IZR id))%R) in *.
  destruct St' as (Sd & I1 & I2 & I3 & W).
  destruct (Hsort (ds_at exact L input a')) as (l' & Sl & P & So). change (lsort L) with sort in Sd. rewrite Sl in Sd. injection Sd as ->. change (@length (carrier exact)) with (@length R) in *.
  destruct (W (ordered_exact range ds' So)) as (_ & W2).
  (* the points chosen by f lie in a strip *)
  assert (Cnt : Z.of_nat (length (filter f input)) <= c').
  { destruct (filter f input) as [|p0 rest] eqn:Ef; [cbn; lia|].
    (* the smallest distance *)
    assert (Min : forall l : list (R * R), l <> [] -> exists p, In p l /\ forall q, In q l -> (dist a' p <= dist a' q)%R).
    { clear. induction l as [|p l IH]; intros H; [congruence|]. destruct l as [|p1 l'].
      - exists p. split; [left; reflexivity|]. intros q [->|[]]. lra.
      - destruct IH as (m & M1 & M2); [discriminate|]. destruct (Rle_dec (dist a' p) (dist a' m)) as [h|h].
        + exists p. split; [left; reflexivity|]. intros q [->|Hq]; [lra|]. specialize (M2 q Hq). lra.
        + exists m. split; [right; exact M1|]. intros q [<-|Hq]; [lra|auto]. }
    destruct (Min (filter f input)) as (m & M1 & M2); [rewrite Ef; discriminate|]. apply filter_In in M1 as [Mi Mf].
    set (h := fun d : R => negb (Rltb d (dist a' m) || Rltb (2 * line' + dist a' m) d)).
    assert (Hh : forall d, h d = true <-> (dist a' m <= d <= 2 * line' + dist a' m)%R).
    { intros d. unfold h, Rltb. destruct (Rlt_dec d (dist a' m)), (Rlt_dec (2 * line' + dist a' m) d); cbn; split; intros; try discriminate; try lra; auto. }
    rewrite <- Ef.
    assert (K1 : (length (filter f input) <= length (filter (fun p => h (dist a' p)) input))%nat).
    { apply filter_le2. intros p Hp Fp. apply Hh. split.
      - apply M2, filter_In. auto.
      - apply Hf; auto. }
    rewrite <- (filter_map h (dist a') input) in K1. change (map (dist a') input) with (ds_at exact L input a') in K1.
    rewrite (filter_perm h _ ds' P) in K1.
    assert (K2 : Z.of_nat (length (filter h ds')) <= c').
    { apply (strip_count range ds' c' So); [lia| |].
      - intros p k Hp Hk Hle. apply W2; auto. change (Rltb (range + @nth R (Z.to_nat p) ds' 0) (@nth R (Z.to_nat k) ds' 0) = false)%R.
        unfold Rltb. destruct (Rlt_dec _ _) as [Hlt|]; [exfalso; apply (Rlt_not_le _ _ Hlt); exact Hle|reflexivity].
      - intros x y Hx Hy Fx Fy. apply Hh in Fx, Fy. rewrite Hrange. lra. }
    lia. }
  apply Nat2Z.inj_le. eapply Z.le_trans; [exact Cnt|]. eapply Z.le_trans; [exact Hc'|]. exact Best.
Qed.
End EXACT.
