(** Properties C177 to C181: sizes of transforms, limits of blobs, measurements of blobs. *)
From Coq Require Import ZArith Znumtheory Zpow_facts List Bool Lia.
From Verif Require Import Base Image Spec BaseProofs ImgFun ImgLemmas ImgProofs ReduceProofs PropsA Double.
From Verif Require Import Blob BlobProofs BlobFilter PropsI Measure Outline.
Import ListNotations.
Open Scope Z_scope.
Ltac Zify.zify_post_hook ::= idtac.

(** ** C177: kiss_fft_next_fast_size *)
Definition smooth (n : Z) : Prop := exists a b c, 0 <= a /\ 0 <= b /\ 0 <= c /\ n = 2 ^ a * 3 ^ b * 5 ^ c.

Lemma divide_out_spec q : 1 < q -> forall n m, 0 < m <= Z.of_nat n -> forall fuel, (n <= fuel)%nat ->
  exists k r, divide_out fuel q m = Some r /\ 0 <= k /\ m = q ^ k * r /\ 0 < r /\ ~ (q | r).
Proof.
  intros Hq. induction n as [|n IH]; intros m Hm fuel Hf; [lia|].
  destruct fuel as [|fuel]; [lia|]. cbn [divide_out].
  rewrite Z.rem_mod_nonneg, Z.quot_div_nonneg by lia.
  destruct (Z.eqb_spec (m mod q) 0) as [E|E].
  - apply Z.div_exact in E; [|lia].
    destruct (IH (m / q)) with (fuel := fuel) as (k & r & R & Hk & Em & Hr & Hd); [|lia|].
    { assert (0 < m / q) by nia. split; [assumption|]. nia. }
    exists (k + 1), r. repeat split; try assumption; [lia|]. rewrite Z.pow_add_r, Z.pow_1_r by lia.
    rewrite E at 1. rewrite Em at 1. ring.
  - exists 0, m. repeat split; try lia. intros [z Hz]. apply E. rewrite Hz. apply Z_mod_mult.
Qed.

Lemma leftover_spec n : 0 < n -> forall fuel, (Z.to_nat n <= fuel)%nat ->
  exists r, leftover fuel n = Some r /\ 0 < r /\ (r = 1 <-> smooth n).
Proof.
  intros Hn fuel Hf. unfold leftover.
  destruct (divide_out_spec 2 ltac:(lia) (Z.to_nat n) n ltac:(lia) fuel Hf) as (a & m1 & -> & Ha & E1 & P1 & D1).
  assert (L1 : m1 <= n) by (assert (0 < 2 ^ a) by (apply Z.pow_pos_nonneg; lia); nia).
  destruct (divide_out_spec 3 ltac:(lia) (Z.to_nat n) m1 ltac:(lia) fuel Hf) as (b & m2 & -> & Hb & E2 & P2 & D2).
  assert (L2 : m2 <= m1) by (assert (0 < 3 ^ b) by (apply Z.pow_pos_nonneg; lia); nia).
  destruct (divide_out_spec 5 ltac:(lia) (Z.to_nat n) m2 ltac:(lia) fuel Hf) as (c & m3 & -> & Hc & E3 & P3 & D3).
  exists m3. split; [reflexivity|]. split; [assumption|]. split.
  - intros ->. exists a, b, c. repeat split; try assumption. rewrite E1, E2, E3. ring.
  - intros (a' & b' & c' & Ha' & Hb' & Hc' & E).
    assert (R : forall p, prime p -> ~ (p | m3) -> forall k, 0 <= k -> rel_prime m3 (p ^ k)).
    { intros p Hp Hd k Hk. apply rel_prime_Zpower_r; [assumption|]. apply rel_prime_sym, prime_rel_prime; assumption. }
    assert (F : (m3 | 1)).
    { assert (G : (m3 | 2 ^ a' * (3 ^ b' * (5 ^ c' * 1)))).
      { replace (2 ^ a' * (3 ^ b' * (5 ^ c' * 1))) with n by (rewrite E; ring).
        rewrite E1, E2, E3. exists (2 ^ a * 3 ^ b * 5 ^ c). ring. }
      apply Gauss in G; [|apply R; [apply prime_2| |assumption]; intros [z Hz]; apply D1; rewrite E2, E3, Hz; exists (3 ^ b * 5 ^ c * z); ring].
      apply Gauss in G; [|apply R; [apply prime_3| |assumption]; intros [z Hz]; apply D2; rewrite E3, Hz; exists (5 ^ c * z); ring].
      apply Gauss in G; [|apply R; [|assumption|assumption]]; [exact G|].
      apply prime_intro; [lia|]. intros m Hm. apply Zgcd_1_rel_prime.
      assert (C : m = 1 \/ m = 2 \/ m = 3 \/ m = 4) by lia. destruct C as [->|[->|[->| ->]]]; reflexivity. }
    apply Z.divide_1_r_nonneg in F; lia.
Qed.

Lemma next_fast_run d : forall n, 0 < n -> n + Z.of_nat d <= 2147483647 ->
  (forall k, n <= k < n + Z.of_nat d -> ~ smooth k) -> exists K, forall rounds fuel, (K <= rounds)%nat -> (K <= fuel)%nat ->
  (smooth (n + Z.of_nat d) -> next_fast_size rounds fuel n = Size (n + Z.of_nat d)) /\
  (n + Z.of_nat d = 2147483647 -> ~ smooth 2147483647 -> next_fast_size rounds fuel n = Overflow).
Proof.
  induction d as [|d IH]; intros n Hn Hd H.
  - exists (Z.to_nat n). intros [|r] fuel Hr Hf; [lia|]. cbn [next_fast_size].
    destruct (leftover_spec n Hn fuel Hf) as (m & -> & Hm & S). cbn [Z.of_nat]. rewrite Z.add_0_r. split.
    + intros Hs. apply S in Hs. subst m. reflexivity.
    + intros -> N. destruct (Z.leb_spec m 1) as [L|L]; [|reflexivity]. exfalso. apply N, S. lia.
  - destruct (IH (n + 1)) as (K & R); [lia|lia|intros k Hk; apply H; lia|].
    exists (Nat.max (S K) (Z.to_nat n)). intros [|r] fuel Hr Hf; [lia|]. cbn [next_fast_size].
    destruct (leftover_spec n Hn fuel ltac:(lia)) as (m & -> & Hm & S).
    destruct (Z.leb_spec m 1) as [L|L]; [exfalso; apply (H n); [lia|apply S; lia]|].
    destruct (Z.eqb_spec n 2147483647) as [E|E]; [lia|].
    replace (n + Z.of_nat (Datatypes.S d)) with (n + 1 + Z.of_nat d) by lia. apply R; lia.
Qed.

Lemma smooth_dec n : 0 < n -> smooth n \/ ~ smooth n.
Proof.
  intros Hn. destruct (leftover_spec n Hn _ (Nat.le_refl _)) as (r & _ & _ & S).
  destruct (Z.eq_dec r 1) as [E|E]; [left|right]; [apply S, E|intros H; apply E, S, H].
Qed.
(** The first smooth number of a range, if there is one. *)
Lemma first_smooth d : forall n, 0 < n -> (exists k, 0 <= k <= Z.of_nat d /\ smooth (n + k)) ->
  exists e, (e <= d)%nat /\ smooth (n + Z.of_nat e) /\ forall k, n <= k < n + Z.of_nat e -> ~ smooth k.
Proof.
  induction d as [|d IH]; intros n Hn (k & Hk & S).
  - exists 0%nat. replace k with 0 in S by lia. repeat split; [lia|exact S|intros j Hj; lia].
  - destruct (smooth_dec n Hn) as [T|T].
    + exists 0%nat. cbn [Z.of_nat]. rewrite Z.add_0_r. repeat split; [lia|exact T|intros j Hj; lia].
    + destruct (IH (n + 1)) as (e & He & Se & N); [lia| |].
      { exists (k - 1). assert (k <> 0) by (intros ->; rewrite Z.add_0_r in S; contradiction).
        split; [lia|]. replace (n + 1 + (k - 1)) with (n + k) by lia. exact S. }
      exists (Datatypes.S e). replace (n + Z.of_nat (Datatypes.S e)) with (n + 1 + Z.of_nat e) by lia.
      repeat split; [lia|exact Se|]. intros j Hj. destruct (Z.eq_dec j n) as [->|E]; [exact T|apply N; lia].
Qed.

(** The call ends, and gives the least size of factors 2, 3 and 5 that is not less than n. *)
Definition C177_claim : Prop := forall n, -2147483648 <= n <= 2147483647 ->
  exists K r, (forall rounds fuel, (K <= rounds)%nat -> (K <= fuel)%nat -> next_fast_size rounds fuel n = Size r) /\
    smooth r /\ n <= r /\ forall k, n <= k < r -> ~ smooth k.
Theorem C177_next_fast_size_partial n : 0 < n <= 2125764000 ->
  exists K r, (forall rounds fuel, (K <= rounds)%nat -> (K <= fuel)%nat -> next_fast_size rounds fuel n = Size r) /\
    smooth r /\ n <= r /\ forall k, n <= k < r -> ~ smooth k.
Proof.
  intros Hn. destruct (first_smooth (Z.to_nat (2125764000 - n)) n) as (e & He & Se & N); [lia| |].
  { exists (2125764000 - n). split; [lia|]. replace (n + (2125764000 - n)) with 2125764000 by lia.
    exists 5, 12, 3. split; [lia|]. split; [lia|]. split; [lia|]. reflexivity. }
  destruct (next_fast_run e n) as (K & R); [lia|lia|exact N|]. exists K, (n + Z.of_nat e).
  split; [|split; [exact Se|split; [lia|exact N]]]. intros rounds fuel Hr Hf. apply (R rounds fuel Hr Hf), Se.
Qed.
Example C177_case : next_fast_size 20 20 7 = Size 8 /\ next_fast_size 20 20 121 = Size 125 /\ next_fast_size 20 20 1 = Size 1.
Proof. repeat split; reflexivity. Qed.

(** No int greater than 2125764000 has factors 2, 3 and 5 only. *)
Definition exps (n : nat) : list Z := map Z.of_nat (seq 0 n).
Lemma exps_in n k : 0 <= k < Z.of_nat n -> In k (exps n).
Proof. intros H. apply in_map_iff. exists (Z.to_nat k). split; [lia|]. apply in_seq. lia. Qed.
Definition gap_at (a b c : Z) : bool := let n := 2 ^ a * 3 ^ b * 5 ^ c in (n <=? 2125764000) || (2147483647 <? n).
Lemma gap_true : forallb (fun a => forallb (fun b => forallb (gap_at a b) (exps 14)) (exps 20)) (exps 32) = true.
Proof. vm_compute. reflexivity. Qed.
Lemma gap_all a b c : In a (exps 32) -> In b (exps 20) -> In c (exps 14) -> gap_at a b c = true.
Proof.
  intros Ha Hb Hc. pose proof (proj1 (forallb_forall _ _) gap_true a Ha) as G. cbv beta in G.
  pose proof (proj1 (forallb_forall _ _) G b Hb) as G'. cbv beta in G'.
  exact (proj1 (forallb_forall _ _) G' c Hc).
Qed.
Lemma pow_bound q k e : 1 < q -> 0 <= k -> 0 <= e -> q ^ k <= 2147483647 -> 2147483647 < q ^ e -> k < e.
Proof. intros Hq Hk He H1 H2. apply (Z.pow_lt_mono_r_iff q); lia. Qed.
Lemma no_smooth n : 2125764000 < n <= 2147483647 -> ~ smooth n.
Proof.
  intros Hn (a & b & c & Ha & Hb & Hc & E).
  assert (A : 0 < 2 ^ a) by (apply Z.pow_pos_nonneg; lia). assert (B : 0 < 3 ^ b) by (apply Z.pow_pos_nonneg; lia).
  assert (C : 0 < 5 ^ c) by (apply Z.pow_pos_nonneg; lia).
  assert (LA : a < 32) by (apply (pow_bound 2); [lia|lia|lia|nia|reflexivity]).
  assert (LB : b < 20) by (apply (pow_bound 3); [lia|lia|lia|nia|reflexivity]).
  assert (LC : c < 14) by (apply (pow_bound 5); [lia|lia|lia|nia|reflexivity]).
  pose proof (gap_all a b c (exps_in 32 a ltac:(lia)) (exps_in 20 b ltac:(lia)) (exps_in 14 c ltac:(lia))) as G.
  unfold gap_at in G. rewrite <- E in G. cbv zeta in G.
  apply orb_true_iff in G. destruct G as [G|G]; [apply Z.leb_le in G|apply Z.ltb_lt in G]; lia.
Qed.
(** Above, the counter overflows; for 0 the call does not end; below 0 it gives the argument. *)
Theorem C177_outside :
  (forall n, 2125764000 < n <= 2147483647 -> exists K, forall rounds fuel, (K <= rounds)%nat -> (K <= fuel)%nat ->
     next_fast_size rounds fuel n = Overflow) /\
  (forall rounds fuel, next_fast_size rounds fuel 0 = NotYet) /\
  (forall n, -2147483648 <= n < 0 -> exists K, forall rounds fuel, (K <= rounds)%nat -> (K <= fuel)%nat ->
     next_fast_size rounds fuel n = Size n).
Proof.
  split; [|split].
  - intros n Hn. destruct (next_fast_run (Z.to_nat (2147483647 - n)) n) as (K & R); [lia|lia|intros k Hk; apply no_smooth; lia|].
    exists K. intros rounds fuel Hr Hf. apply (R rounds fuel Hr Hf); [lia|apply no_smooth; lia].
  - intros [|r] fuel; [reflexivity|]. cbn [next_fast_size]. unfold leftover.
    assert (D : divide_out fuel 2 0 = None) by (induction fuel as [|f IH]; [reflexivity|exact IH]).
    rewrite D. reflexivity.
  - intros n Hn.
    assert (D : forall q k m, 1 < q -> - Z.of_nat k <= m < 0 -> forall fuel, (k <= fuel)%nat ->
      exists r, divide_out fuel q m = Some r /\ m <= r < 0).
    { intros q. induction k as [|k IH]; intros m Hq Hm fuel Hf; [lia|]. destruct fuel as [|fuel]; [lia|]. cbn [divide_out].
      destruct (Z.eqb_spec (Z.rem m q) 0) as [E|E].
      - pose proof (Z.quot_rem' m q) as Q. rewrite E in Q.
        destruct (IH (Z.quot m q) Hq) with (fuel := fuel) as (r & R & Hr); [nia|lia|]. exists r. split; [exact R|nia].
      - exists m. split; [reflexivity|lia]. }
    exists (Datatypes.S (Z.to_nat (- n))). intros [|r] fuel Hr Hf; [lia|]. cbn [next_fast_size]. unfold leftover.
    destruct (D 2 (Z.to_nat (- n)) n ltac:(lia) ltac:(lia) fuel ltac:(lia)) as (m1 & -> & H1).
    destruct (D 3 (Z.to_nat (- n)) m1 ltac:(lia) ltac:(lia) fuel ltac:(lia)) as (m2 & -> & H2).
    destruct (D 5 (Z.to_nat (- n)) m2 ltac:(lia) ltac:(lia) fuel ltac:(lia)) as (m3 & -> & H3).
    destruct (Z.leb_spec m3 1); [reflexivity|lia].
Qed.
Theorem C177_zero_refuted : ~ C177_claim.
Proof.
  intros H. destruct (H 0 ltac:(lia)) as (K & r & R & _). specialize (R K K (Nat.le_refl _) (Nat.le_refl _)).
  rewrite (proj1 (proj2 C177_outside)) in R. discriminate.
Qed.
Print Assumptions C177_next_fast_size_partial.
Print Assumptions C177_outside.
Print Assumptions C177_zero_refuted.

(** ** C178: the limits of a blob after any sequence of calls *)
Section LIMITS.
Context {T : Type} (zero : T) (lt : T -> T -> bool).
Definition sets_lower (c : pcall (T := T)) (v : T) : Prop :=
  match c with CSet a _ => a = v | CSetMinimum a => a = v | _ => False end.
Definition sets_upper (c : pcall (T := T)) (v : T) : Prop :=
  match c with CSet _ b => b = v | CSetMaximum b => b = v | _ => False end.
(** The limit in force: the last one given, if no reset came after it. *)
Definition lower_of (h : list pcall) (v : T) : Prop := exists h1 c h2, h = h1 ++ c :: h2 /\ sets_lower c v /\
  forall d, In d h2 -> d <> CReset /\ forall u, ~ sets_lower d u.
Definition upper_of (h : list pcall) (v : T) : Prop := exists h1 c h2, h = h1 ++ c :: h2 /\ sets_upper c v /\
  forall d, In d h2 -> d <> CReset /\ forall u, ~ sets_upper d u.

Lemma snoc_split {A} (h h1 h2 : list A) x c : h ++ [x] = h1 ++ c :: h2 ->
  (h2 = [] /\ c = x /\ h1 = h) \/ exists h2', h2 = h2' ++ [x] /\ h = h1 ++ c :: h2'.
Proof.
  intros E. destruct (exists_last (l := c :: h2)) as (l & y & El); [discriminate|].
  rewrite El, app_assoc in E. apply app_inj_tail in E. destruct E as [E ->].
  destruct l as [|c' l].
  - cbn in El. injection El as -> ->. left. rewrite app_nil_r in E. auto.
  - cbn in El. injection El as <- ->. right. exists l. auto.
Qed.
Lemma lower_snoc h c v : lower_of (h ++ [c]) v <-> sets_lower c v \/
  (lower_of h v /\ c <> CReset /\ forall u, ~ sets_lower c u).
Proof.
  split.
  - intros (h1 & d & h2 & E & S & N). destruct (snoc_split _ _ _ _ _ E) as [(-> & -> & ->)|(h2' & -> & ->)]; [left; exact S|].
    right. split.
    + exists h1, d, h2'. split; [reflexivity|]. split; [exact S|]. intros e He. apply N, in_app_iff. auto.
    + apply N, in_app_iff. right. left. reflexivity.
  - intros [S|((h1 & d & h2 & -> & S & N) & Nc)].
    + exists h, c, []. split; [reflexivity|]. split; [exact S|]. intros d [].
    + exists h1, d, (h2 ++ [c]). split; [rewrite <- app_assoc; reflexivity|]. split; [exact S|].
      intros e He. apply in_app_iff in He. destruct He as [He|[<-|[]]]; [apply N, He|exact Nc].
Qed.
Lemma upper_snoc h c v : upper_of (h ++ [c]) v <-> sets_upper c v \/
  (upper_of h v /\ c <> CReset /\ forall u, ~ sets_upper c u).
Proof.
  split.
  - intros (h1 & d & h2 & E & S & N). destruct (snoc_split _ _ _ _ _ E) as [(-> & -> & ->)|(h2' & -> & ->)]; [left; exact S|].
    right. split.
    + exists h1, d, h2'. split; [reflexivity|]. split; [exact S|]. intros e He. apply N, in_app_iff. auto.
    + apply N, in_app_iff. right. left. reflexivity.
  - intros [S|((h1 & d & h2 & -> & S & N) & Nc)].
    + exists h, c, []. split; [reflexivity|]. split; [exact S|]. intros d [].
    + exists h1, d, (h2 ++ [c]). split; [rewrite <- app_assoc; reflexivity|]. split; [exact S|].
      intros e He. apply in_app_iff in He. destruct He as [He|[<-|[]]]; [apply N, He|exact Nc].
Qed.
Lemma no_limit h : h = [] -> forall v, ~ lower_of h v /\ ~ upper_of h v.
Proof. intros -> v. split; intros (h1 & c & h2 & E & _); destruct h1; discriminate. Qed.
Lemma pcalls_limits h : (forall v, lower_of h v <-> checkMinimum (pcalls zero h) = true /\ minimum (pcalls zero h) = v) /\
  (forall v, upper_of h v <-> checkMaximum (pcalls zero h) = true /\ maximum (pcalls zero h) = v).
Proof.
  induction h as [|c h [L U]] using rev_ind.
  - split; intros v; destruct (no_limit [] eq_refl v) as [N1 N2]; split; try contradiction; intros [E _]; discriminate E.
  - unfold pcalls in *. rewrite fold_left_app. cbn [fold_left]. set (p := fold_left (pstep zero) h (initial zero)) in *.
    split; intros v.
    + rewrite lower_snoc, L. destruct c as [a b|a|b|]; cbn [pstep setBoth setMinimum setMaximum reset initial checkMinimum minimum sets_lower].
      * split; [intros [H|(_ & _ & H)]; [auto|destruct (H a eq_refl)]|intros [_ H]; auto].
      * split; [intros [H|(_ & _ & H)]; [auto|destruct (H a eq_refl)]|intros [_ H]; auto].
      * split; [intros [[]|(H & _)]; exact H|intros H; right; repeat split; [exact (proj1 H)|exact (proj2 H)|discriminate|auto]].
      * split; [intros [[]|(_ & H & _)]; contradiction|intros [H _]; discriminate H].
    + rewrite upper_snoc, U. destruct c as [a b|a|b|]; cbn [pstep setBoth setMinimum setMaximum reset initial checkMaximum maximum sets_upper].
      * split; [intros [H|(_ & _ & H)]; [auto|destruct (H b eq_refl)]|intros [_ H]; auto].
      * split; [intros [[]|(H & _)]; exact H|intros H; right; repeat split; [exact (proj1 H)|exact (proj2 H)|discriminate|auto]].
      * split; [intros [H|(_ & _ & H)]; [auto|destruct (H b eq_refl)]|intros [_ H]; auto].
      * split; [intros [[]|(_ & H & _)]; contradiction|intros [H _]; discriminate H].
Qed.

(** Whatever was called before: a value is kept exactly when it is not beyond a limit in force,
    and verify() throws exactly when the limits in force exclude each other. *)
Theorem C178_limits h :
  (forall v, keeps lt (pcalls zero h) v = true <->
     (forall a, lower_of h a -> lt v a = false) /\ (forall b, upper_of h b -> lt b v = false)) /\
  (accepts lt (pcalls zero h) = false <-> exists a b, lower_of h a /\ upper_of h b /\ lt b a = true).
Proof.
  destruct (pcalls_limits h) as [L U]. revert L U. generalize (pcalls zero h). intros p L U. split.
  - intros v. unfold keeps. rewrite negb_true_iff, orb_false_iff, !andb_false_iff. split.
    + intros [H1 H2]. split.
      * intros a Ha. apply L in Ha. destruct Ha as [Hc <-]. destruct H2 as [H2|H2]; [congruence|exact H2].
      * intros b Hb. apply U in Hb. destruct Hb as [Hc <-]. destruct H1 as [H1|H1]; [congruence|exact H1].
    + intros [H1 H2]. split.
      * destruct (checkMaximum p) eqn:E; [right; apply H2, U; auto|left; reflexivity].
      * destruct (checkMinimum p) eqn:E; [right; apply H1, L; auto|left; reflexivity].
  - unfold accepts. rewrite negb_false_iff, !andb_true_iff. split.
    + intros [[H1 H2] H3]. exists (minimum p), (maximum p). split; [apply L; auto|]. split; [apply U; auto|exact H3].
    + intros (a & b & Ha & Hb & H). apply L in Ha. apply U in Hb. destruct Ha as [Ha <-], Hb as [Hb <-]. auto.
Qed.
(** After reset the object is as a new one. *)
Theorem C178_reset h h' : pcalls zero (h ++ CReset :: h') = pcalls zero h'.
Proof. unfold pcalls. rewrite fold_left_app. reflexivity. Qed.
(** [keeps] and [accepts] are the filter and the test of Blob.v. *)
Definition as_limits (p : parameter T) : limits T :=
  mkLimits (if checkMinimum p then Some (minimum p) else None) (if checkMaximum p then Some (maximum p) else None).
Lemma as_limits_spec p v : keeps lt p v = negb (removed lt (as_limits p) v) /\ accepts lt p = verify lt (as_limits p).
Proof.
  destruct p as [a ca b cb]. unfold keeps, accepts, removed, verify, as_limits.
  cbn [minimum checkMinimum maximum checkMaximum lmin lmax].
  destruct ca, cb; cbn [lmin lmax andb orb negb]; split; try reflexivity; rewrite ?orb_false_r; reflexivity.
Qed.
End LIMITS.
Example C178_case : let h := [CSet 5 3; CReset; CSetMaximum 9; CSetMinimum 2; CSetMaximum 7] in
  map (keeps Z.ltb (pcalls 0 h)) [1; 2; 7; 8] = [false; true; true; false] /\ accepts Z.ltb (pcalls 0 h) = true /\
  accepts Z.ltb (pcalls 0 [CSet 5 3]) = false /\ lower_of h 2 /\ upper_of h 7.
Proof.
  repeat split; [|].
  - exists [CSet 5 3; CReset; CSetMaximum 9], (CSetMinimum 2), [CSetMaximum 7]. repeat split.
    + destruct H as [<-|[]]. discriminate.
    + intros u. destruct H as [<-|[]]. cbn. auto.
  - exists [CSet 5 3; CReset; CSetMaximum 9; CSetMinimum 2], (CSetMaximum 7), []. repeat split; destruct H.
Qed.
Print Assumptions C178_limits.
Print Assumptions C178_reset.

(** ** C179: the measurements of a blob after any sequence of calls *)
Definition measurement (lm : libm) (b : blob) (q : query) : res mem answer :=
  let number c := do v <- compute lm c b; Ok (match v with VInt z => AInt z | VDouble d => ADouble d end) in
  match q with
  | QArea => Ok (AArea (mkArea (list_min (map fst (bcontour b))) (u32 (list_max (map fst (bcontour b)) + 1))
                               (list_min (map snd (bcontour b))) (u32 (list_max (map snd (bcontour b)) + 1))))
  | QCenter => Ok (APoint (center b))
  | QCircularity => number ByCircularity
  | QElongation => number ByElongation
  | QHeight => number ByHeight
  | QLength => number ByLength
  | QWidth => number ByWidth
  end.
(** A form that is not const was called; that of the circularity computes the centre, too. *)
Definition asked (h : list (bool * query)) (q : query) : Prop :=
  In (true, q) h \/ (q = QCenter /\ In (true, QCircularity) h).

Definition query_eqb (a b : query) : bool :=
  match a, b with
  | QArea, QArea | QCenter, QCenter | QCircularity, QCircularity | QElongation, QElongation
  | QHeight, QHeight | QLength, QLength | QWidth, QWidth => true
  | _, _ => false
  end.
Lemma query_eqb_spec a b : query_eqb a b = true <-> a = b.
Proof. destruct a, b; cbn; split; congruence. Qed.
Definition marks (q r : query) : bool := query_eqb q r || (query_eqb q QCircularity && query_eqb r QCenter).
Definition holds {T} (c : cache T) (p : bool) (v : res mem T) (init : option T) : Prop :=
  if p then exists a, v = Ok a /\ c = mkCache (Some a) true else c = mkCache init false.
Definition good (lm : libm) (b : blob) (P : query -> bool) (i : binfo) : Prop :=
  bi_blob i = b /\ (P QCircularity = true -> P QCenter = true) /\
  holds (bi_area i) (P QArea) (Ok (mkArea (list_min (map fst (bcontour b))) (u32 (list_max (map fst (bcontour b)) + 1))
     (list_min (map snd (bcontour b))) (u32 (list_max (map snd (bcontour b)) + 1)))) (Some (mkArea 0 0 0 0)) /\
  holds (bi_center i) (P QCenter) (Ok (center b)) (Some (dofZ 0, dofZ 0)) /\
  holds (bi_circularity i) (P QCircularity) (blob_circularity lm b) None /\
  holds (bi_elongation i) (P QElongation) (blob_elongation lm b) None /\
  holds (bi_height i) (P QHeight) (Ok (blob_height b)) None /\
  holds (bi_length i) (P QLength) (blob_length b) None /\
  holds (bi_width i) (P QWidth) (Ok (blob_width b)) None.

Ltac fields := cbn [bi_blob bi_area bi_center bi_circularity bi_elongation bi_height bi_length bi_width].
Ltac fin H K2 := repeat (split; [solve [reflexivity|auto|exact H|apply (K2 _ _ false); reflexivity]|]); solve [auto|exact H|apply (K2 _ _ false); reflexivity].
Lemma fetch_good lm b P i q i' : bpoints b <> [] -> bcontour b <> [] -> good lm b P i -> fetch lm q i = Ok i' ->
  good lm b (fun r => P r || marks q r) i'.
Proof.
  intros Np Nc. assert (Ep : none (bpoints b) = false) by (destruct (bpoints b); [contradiction|reflexivity]).
  assert (Ec : none (bcontour b) = false) by (destruct (bcontour b); [contradiction|reflexivity]).
  destruct i as [b0 ar ce ci el he le wi]. unfold good. fields.
  intros (-> & Hi & Har & Hce & Hci & Hel & Hhe & Hle & Hwi).
  assert (K : forall T (c : cache T) p v init, holds c p v init -> holds c (p || false) v init) by (intros; rewrite orb_false_r; assumption).
  assert (K1 : forall T (c : cache T) p v init, holds c p v init -> c_found c = p).
  { intros T c p v init. unfold holds. destruct p; [intros (a & _ & ->)|intros ->]; reflexivity. }
  assert (K2 : forall T (a : T) p v init, v = Ok a -> holds (mkCache (Some a) true) (p || true) v init).
  { intros T a p v init Hv. rewrite orb_true_r. exists a. auto. }
  assert (K3 : forall T (c : cache T) p v init, holds c p v init -> p = true -> holds c (p || true) v init).
  { intros T c p v init H Hp. rewrite Hp in *. exact H. }
  assert (I : P QCircularity || false = true -> P QCenter || false = true) by (rewrite !orb_false_r; exact Hi).
  destruct q; cbn [fetch]; change (marks QArea) with (fun r => marks QArea r);
    cbv beta; unfold marks; cbn [query_eqb andb orb].
  - unfold getArea. fields. rewrite (K1 _ _ _ _ _ Har), Ec. destruct (P QArea) eqn:E; cbn [negb andb]; intros H; injection H as <-; fields;
      (split; [reflexivity|]); (split; [exact I|]); (split; [|repeat split; auto]); [exact (K3 _ _ _ _ _ Har eq_refl)|apply (K2 _ _ false); reflexivity].
  - unfold getCenter. fields. rewrite (K1 _ _ _ _ _ Hce), Ep. destruct (P QCenter) eqn:E; cbn [negb andb]; intros H; injection H as <-; fields;
      (split; [reflexivity|]); (split; [intros _; apply orb_true_r|]); (split; [auto|]); (split; [|repeat split; auto]);
      [exact (K3 _ _ _ _ _ Hce eq_refl)|apply (K2 _ _ false); reflexivity].
  - unfold getCircularity, getCenter. fields.
    rewrite (K1 _ _ _ _ _ Hci), (K1 _ _ _ _ _ Hce), Ec, Ep. destruct (P QCircularity) eqn:E; cbn [negb andb].
    + specialize (Hi eq_refl). intros H. injection H as <-. fields.
      split; [reflexivity|]. split; [intros _; apply orb_true_r|]. split; [auto|].
      split; [exact (K3 _ _ _ _ _ Hce Hi)|]. split; [exact Hci|repeat split; auto].
    + destruct (P QCenter) eqn:E'; cbn [negb andb bind bi_center c_value].
      * destruct Hce as (c0 & Hc0 & ->). injection Hc0 as <-. cbn [c_value]. intros H. injection H as <-. fields.
        split; [reflexivity|]. split; [reflexivity|]. split; [auto|]. split; [apply (K2 _ _ true); reflexivity|].
        split; [apply (K2 _ _ false); reflexivity|repeat split; auto].
      * intros H. injection H as <-. fields.
        split; [reflexivity|]. split; [reflexivity|]. split; [auto|]. split; [apply (K2 _ _ false); reflexivity|].
        split; [apply (K2 _ _ false); reflexivity|repeat split; auto].
  - unfold getElongation. fields. rewrite (K1 _ _ _ _ _ Hel), Ec. destruct (P QElongation) eqn:E; cbn [negb andb].
    + intros H. injection H as <-. fields. fin Hel K2.
    + destruct (blob_elongation lm b) as [v| | |] eqn:Ev; cbn [bind]; intros H; try discriminate. injection H as <-. fields. fin Hel K2.
  - unfold getHeight. fields. rewrite (K1 _ _ _ _ _ Hhe), Ec. destruct (P QHeight) eqn:E; cbn [negb andb]; intros H; injection H as <-; fields; fin Hhe K2.
  - unfold getLength. fields. rewrite (K1 _ _ _ _ _ Hle), Ec. destruct (P QLength) eqn:E; cbn [negb andb].
    + intros H. injection H as <-. fields. fin Hle K2.
    + destruct (blob_length b) as [v| | |] eqn:Ev; cbn [bind]; intros H; try discriminate. injection H as <-. fields. fin Hle K2.
  - unfold getWidth. fields. rewrite (K1 _ _ _ _ _ Hwi), Ec. destruct (P QWidth) eqn:E; cbn [negb andb]; intros H; injection H as <-; fields; fin Hwi K2.
Qed.

Lemma good_ext lm b P Q i : (forall q, P q = Q q) -> good lm b P i -> good lm b Q i.
Proof. intros E. unfold good. rewrite !E. auto. Qed.
Lemma good_stored lm b P i q : good lm b P i ->
  if P q then exists a, measurement lm b q = Ok a /\ stored q i = Some a else stored q i = stored q (new_info b).
Proof.
  unfold good. destruct i as [b0 ar ce ci el he le wi]. fields.
  intros (_ & _ & Har & Hce & Hci & Hel & Hhe & Hle & Hwi).
  destruct q; cbn [measurement stored new_info compute]; fields; cbn [c_value option_map].
  - unfold holds in Har. destruct (P QArea); [destruct Har as (a & E & ->)|rewrite Har; reflexivity]. injection E as <-. eexists. split; reflexivity.
  - unfold holds in Hce. destruct (P QCenter); [destruct Hce as (a & E & ->)|rewrite Hce; reflexivity]. injection E as <-. eexists. split; reflexivity.
  - unfold holds in Hci. destruct (P QCircularity); [destruct Hci as (a & -> & ->)|rewrite Hci; reflexivity]. eexists. split; reflexivity.
  - unfold holds in Hel. destruct (P QElongation); [destruct Hel as (a & -> & ->)|rewrite Hel; reflexivity]. eexists. split; reflexivity.
  - unfold holds in Hhe. destruct (P QHeight); [destruct Hhe as (a & E & ->)|rewrite Hhe; reflexivity]. injection E as <-. eexists. split; reflexivity.
  - unfold holds in Hle. destruct (P QLength); [destruct Hle as (a & -> & ->)|rewrite Hle; reflexivity]. eexists. split; reflexivity.
  - unfold holds in Hwi. destruct (P QWidth); [destruct Hwi as (a & E & ->)|rewrite Hwi; reflexivity]. injection E as <-. eexists. split; reflexivity.
Qed.
(** A fetch fails as the computation does. *)
Lemma fetch_fails lm b P i q : bpoints b <> [] -> bcontour b <> [] -> good lm b P i ->
  (exists i', fetch lm q i = Ok i') \/ (do r <- ask lm true q i; Ok (fst r)) = measurement lm b q.
Proof.
  intros Np Nc. destruct i as [b0 ar ce ci el he le wi]. unfold good. fields.
  intros (-> & Hi & _ & Hce & _).
  destruct q; unfold ask; cbn [fetch].
  - left. unfold getArea. destruct (_ && _); eauto.
  - left. unfold getCenter. destruct (_ && _); eauto.
  - left. unfold getCircularity, getCenter. fields. destruct (_ && negb (none (bcontour b))); [|eauto].
    destruct (_ && _ && _); cbn [bind]; fields; cbn [c_value]; [eauto|].
    unfold holds in Hce. destruct (P QCenter); [destruct Hce as (a & _ & ->)|rewrite Hce]; cbn [c_value]; eauto.
  - unfold getElongation. fields. destruct (_ && _ && _); [|left; eauto].
    cbn [measurement compute]. destruct (blob_elongation lm b); cbn [bind]; eauto.
  - left. unfold getHeight. destruct (_ && _); eauto.
  - unfold getLength. fields. destruct (_ && _ && _); [|left; eauto].
    cbn [measurement compute]. destruct (blob_length b); cbn [bind]; eauto.
  - left. unfold getWidth. destruct (_ && _); eauto.
Qed.
Lemma asks_good lm b : bpoints b <> [] -> bcontour b <> [] -> forall h P i i', good lm b P i -> asks lm h i = Ok i' ->
  good lm b (fun r => P r || existsb (fun c => fst c && marks (snd c) r) h) i'.
Proof.
  intros Np Nc. induction h as [|[z q] h IH]; intros P i i' G H; cbn [asks] in H.
  - injection H as <-. revert G. apply good_ext. intros q. cbn [existsb]. rewrite orb_false_r. reflexivity.
  - unfold ask in H. destruct z.
    + destruct (fetch lm q i) as [i1| | |] eqn:F; cbn [bind] in H; try discriminate.
      pose proof (fetch_good lm b P i q i1 Np Nc G F) as G1. destruct (stored q i1); cbn [bind snd] in H; [|discriminate].
      specialize (IH _ _ _ G1 H). revert IH. apply good_ext. intros r. cbn [existsb fst snd andb]. rewrite orb_assoc. reflexivity.
    + cbn [bind] in H. destruct (stored q i); cbn [bind snd] in H; [|discriminate].
      specialize (IH _ _ _ G H). revert IH. apply good_ext. intros r. cbn [existsb fst andb orb]. reflexivity.
Qed.
Lemma asked_spec h q : existsb (fun c => fst c && marks (snd c) q) h = true <-> asked h q.
Proof.
  rewrite existsb_exists. unfold asked, marks. split.
  - intros ([z r] & Hin & H). cbn [fst snd] in H. apply andb_true_iff in H. destruct H as [-> H]. apply orb_true_iff in H.
    destruct H as [H|H]; [left; apply query_eqb_spec in H; subst r; exact Hin|].
    apply andb_true_iff in H. destruct H as [H1 H2]. apply query_eqb_spec in H1, H2. subst. right. auto.
  - intros [H|[-> H]]; eexists; (split; [exact H|]); cbn [fst snd andb]; [|reflexivity].
    apply orb_true_iff. left. apply query_eqb_spec. reflexivity.
Qed.
Lemma good_new lm b : good lm b (fun _ => false) (new_info b).
Proof. unfold good. cbn. repeat split; auto. Qed.

(** Whatever was called before: a form that is not const gives the measurement of the points; a
    const form gives it if it was computed before, otherwise 0 for area and centre and an
    indeterminate number for the others. *)
Theorem C179_history lm b h i : bpoints b <> [] -> bcontour b <> [] -> asks lm h (new_info b) = Ok i ->
  (forall q, (do r <- ask lm true q i; Ok (fst r)) = measurement lm b q) /\
  (forall q, asked h q -> exists a, measurement lm b q = Ok a /\ ask lm false q i = Ok (a, i)) /\
  (forall q, ~ asked h q -> ask lm false q i =
     match q with QArea => Ok (AArea (mkArea 0 0 0 0), i) | QCenter => Ok (APoint (dofZ 0, dofZ 0), i) | _ => UB end).
Proof.
  intros Np Nc H. pose proof (asks_good lm b Np Nc h _ _ _ (good_new lm b) H) as G. cbn [orb] in G.
  split; [|split].
  - intros q. destruct (fetch_fails lm b _ i q Np Nc G) as [(i' & F)|F]; [|exact F].
    pose proof (fetch_good lm b _ i q i' Np Nc G F) as G'. apply (good_stored lm b _ i' q) in G'. cbv beta in G'.
      replace (marks q q) with true in G' by (destruct q; reflexivity). rewrite orb_true_r in G'.
      destruct G' as (a & M & S). unfold ask. rewrite F. cbn [bind]. rewrite S. cbn [bind fst]. symmetry. exact M.
  - intros q Hq. apply asked_spec in Hq. apply (good_stored lm b _ i q) in G. cbv beta in G. rewrite Hq in G.
    destruct G as (a & M & S). exists a. split; [exact M|]. unfold ask. cbn [bind]. rewrite S. reflexivity.
  - intros q Hq. apply (good_stored lm b _ i q) in G. cbv beta in G.
    destruct (existsb (fun c => fst c && marks (snd c) q) h) eqn:E; [exfalso; apply Hq, asked_spec, E|]. unfold ask. cbn [bind]. rewrite G.
    destruct q; reflexivity.
Qed.
(** The filled square of three pixels. *)
Definition square3 : blob := mkBlob (map (fun k => (4 + k mod 3, 7 + k / 3)) (map Z.of_nat (seq 0 9)))
  [(4, 7); (5, 7); (6, 7); (4, 8); (6, 8); (4, 9); (5, 9); (6, 9)] [(4, 7); (5, 7); (6, 7); (4, 8); (6, 8); (4, 9); (5, 9); (6, 9)].
Example C179_case : exists i, asks zero_libm [(true, QWidth); (false, QWidth); (true, QCircularity); (false, QCenter); (false, QArea)] (new_info square3) = Ok i /\
  ask zero_libm false QCenter i = Ok (APoint (dofZ 5, dofZ 8), i) /\ ask zero_libm false QHeight i = UB /\
  (do r <- ask zero_libm true QHeight i; Ok (fst r)) = Ok (AInt 3).
Proof. eexists. split; [vm_compute; reflexivity|]. repeat split; vm_compute; reflexivity. Qed.
(** A BlobInfo without points: the forms that are not const return indeterminate numbers, too. *)
Theorem C179_empty lm q : (do r <- ask lm true q (new_info (mkBlob [] [] [])); Ok (fst r)) =
  match q with QArea => Ok (AArea (mkArea 0 0 0 0)) | QCenter => Ok (APoint (dofZ 0, dofZ 0)) | _ => UB end.
Proof. destruct q; reflexivity. Qed.
Print Assumptions C179_history.
Print Assumptions C179_empty.

(** ** C180: the rectangle of a blob *)

(** The smallest rectangle with the points in it. *)
Definition smallest (pts : list (Z * Z)) (a : area4) : Prop :=
  (forall p, In p pts -> a_left a <= fst p < a_right a /\ a_top a <= snd p < a_bottom a) /\
  (exists p, In p pts /\ fst p = a_left a) /\ (exists p, In p pts /\ fst p = a_right a - 1) /\
  (exists p, In p pts /\ snd p = a_top a) /\ (exists p, In p pts /\ snd p = a_bottom a - 1).
(** What a getter that is not const returns. *)
Definition answers (lm : libm) (q : query) (o : binfo) : res mem answer := do r <- ask lm true q o; Ok (fst r).
Definition C180_claim : Prop := forall lm m im x y w h p t l,
  area m im x y w h -> icc im = 1 -> (w + 2) * (h + 1) < W32 ->
  find lm m im x y w h p t = Ok l -> forall i, In i l ->
  forall hist o, asks lm hist (new_info (iblob i)) = Ok o ->
    exists a, answers lm QArea o = Ok (AArea a) /\ smallest (bpoints (iblob i)) a /\
      answers lm QWidth o = Ok (AInt (a_right a - a_left a)) /\
      answers lm QHeight o = Ok (AInt (a_bottom a - a_top a)).
(** It is that of the contour, ... *)
Lemma contour_area lm m im x y w h t :
  area m im x y w h -> icc im = 1 -> (w + 2) * (h + 1) < W32 ->
  exists l, find lm m im x y w h no_limits t = Ok l /\ forall i, In i l ->
    exists a, measurement lm (iblob i) QArea = Ok (AArea a) /\ smallest (bcontour (iblob i)) a /\
      measurement lm (iblob i) QWidth = Ok (AInt (a_right a - a_left a)) /\
      measurement lm (iblob i) QHeight = Ok (AInt (a_bottom a - a_top a)) /\
      (forall p, In p (bpoints (iblob i)) -> a_top a <= snd p) /\ (forall p, In p (bcontour (iblob i)) -> In p (bpoints (iblob i))).
Proof.
  intros A C Hsz. destruct (C60_components_partial lm m im x y w h t A C Hsz) as (l & Hl & (Hcov & _ & _) & Ho).
  exists l. split; [exact Hl|]. intros i Hi. specialize (Ho i Hi). pose proof (contour_bright _ _ Ho) as Hin.
  destruct Ho as (_ & _ & _ & s & Hs & Hfirst & _ & Hc).
  assert (Sc : In s (bcontour (iblob i))) by (apply Hc; constructor).
  assert (Hr : forall p, In p (bcontour (iblob i)) -> 0 <= fst p < W32 - 1 /\ 0 <= snd p < W32 - 1).
  { intros p Hp. apply Hin in Hp.
    assert (B : bright m im x y w h t p) by (apply Hcov; exists (iblob i); split; [apply in_map, Hi|exact Hp]).
    unfold bright in B. destruct A as (Hw & [R1 R2 R3 R4 R5 R6]). pose proof (wf_bounds _ _ Hw) as (B1 & B2 & _). lia. }
  assert (Hne : bcontour (iblob i) <> []) by (intros E; rewrite E in Sc; destruct Sc).
  set (c := bcontour (iblob i)) in *.
  assert (G : forall f : Z * Z -> Z, (forall p, In p c -> 0 <= f p < W32 - 1) ->
    (forall p, In p c -> list_min (map f c) <= f p < u32 (list_max (map f c) + 1)) /\
    (exists p, In p c /\ f p = list_min (map f c)) /\ (exists p, In p c /\ f p = u32 (list_max (map f c) + 1) - 1) /\
    u32 (list_max (map f c) - list_min (map f c) + 1) = u32 (list_max (map f c) + 1) - list_min (map f c)).
  { intros f Hf. assert (Hn : map f c <> []) by (destruct c; [contradiction|discriminate]).
    destruct (list_max_spec _ Hn) as (M1 & M2). destruct (list_min_spec _ Hn) as (N1 & N2).
    apply in_map_iff in M1, N1. destruct M1 as (p1 & E1 & I1), N1 as (p0 & E0 & I0).
    pose proof (Hf _ I1). pose proof (Hf _ I0). pose proof (M2 (f p0) (in_map f _ _ I0)).
    rewrite !u32_small by lia. split; [|split; [|split]].
    - intros p Hp. pose proof (M2 _ (in_map f _ _ Hp)). pose proof (N2 _ (in_map f _ _ Hp)). lia.
    - exists p0. auto.
    - exists p1. split; [exact I1|lia].
    - lia. }
  destruct (G fst (fun p Hp => proj1 (Hr p Hp))) as (X1 & X2 & X3 & X4).
  destruct (G snd (fun p Hp => proj2 (Hr p Hp))) as (Y1 & Y2 & Y3 & Y4).
  eexists. split; [reflexivity|]. cbn [a_left a_right a_top a_bottom]. fold c. split; [|split; [|split; [|split]]].
  - unfold smallest. cbn [a_left a_right a_top a_bottom].
    split; [intros p Hp; split; [apply X1, Hp|apply Y1, Hp]|]. split; [exact X2|]. split; [exact X3|]. split; [exact Y2|exact Y3].
  - cbn [measurement compute bind]. unfold blob_width, extent. fold c. rewrite X4. reflexivity.
  - cbn [measurement compute bind]. unfold blob_height, extent. fold c. rewrite Y4. reflexivity.
  - intros p Hp. destruct (Y1 s Sc) as [Y _]. pose proof (Hfirst p Hp) as F. unfold reads_before in F. lia.
  - exact Hin.
Qed.
(** ... and the contour has every point of the blob from which one can leave it sideways, up or
    down without meeting the contour. *)
Section CONTOUR.
Variables (m : mem) (im : image) (x y w h t : Z) (b : blob).
Let white := bright m im x y w h t.
Hypothesis b_white : forall p, In p (bpoints b) -> white p.
Hypothesis b_one : forall p, In p (bpoints b) -> forall q, In q (bpoints b) <-> linked white p q.
Hypothesis b_out : outlines white b.
Let number := phi white (bright_dec m im x y w h t) (bcontour b) (y - 1).

Lemma b_next p q : In p (bpoints b) -> adjacent p q -> white q -> In q (bpoints b).
Proof. intros Hp A Hq. apply (b_one p Hp). eapply linked_step; [constructor|exact A|exact Hq]. Qed.
Lemma c_white p : In p (bcontour b) -> white p.
Proof. intros H. apply b_white, (contour_bright _ _ b_out), H. Qed.
Lemma c_after p : In p (bcontour b) -> x - 1 < fst p /\ y - 1 < snd p.
Proof. intros H. apply c_white in H. destruct H as (H1 & H2 & _). lia. Qed.
Lemma c_grows u v r : In u (bcontour b) -> adjacent u v -> white v -> adjacent v r -> ~ white r -> In v (bcontour b).
Proof.
  intros Hu A Hv B Hr. pose proof (contour_bright _ _ b_out u Hu) as Pu. pose proof (b_next u v Pu A Hv) as Pv.
  destruct b_out as (_ & He & _ & s & _ & _ & _ & Hc). apply Hc. apply Hc in Hu. eapply linked_step; [exact Hu|exact A|].
  apply He. split; [exact Pv|]. exists r. auto.
Qed.
Lemma near_adjacent p q : near p q -> adjacent p q.
Proof.
  unfold near. intros H. split; [|lia]. intros ->. rewrite !Z.sub_diag in H. discriminate.
Qed.
Lemma number_in p : In p (bpoints b) -> number p = true.
Proof.
  intros Hp. pose proof b_out as (_ & He & _ & s & Hs & Hf & Hse & Hc). unfold number.
  assert (Sc : In s (bcontour b)) by (apply Hc; constructor).
  rewrite <- (phi_linked white (bright_dec m im x y w h t) (bcontour b) (x - 1) (y - 1) c_white c_after c_grows s p (b_white s Hs)) by (apply b_one; assumption).
  destruct s as [sx sy].
  assert (No : forall y', y' <= sy - 1 -> ~ In (sx, y') (bpoints b)).
  { intros y' L I. apply Hf in I. unfold reads_before in I. cbn [fst snd] in I. lia. }
  assert (Nr : near (sx, sy - 1) (sx, sy)) by (unfold near; cbn [fst snd]; lia).
  rewrite (phi_enter white (bright_dec m im x y w h t) (bcontour b) (x - 1) (y - 1) c_white c_after c_grows (sx, sy - 1) (sx, sy) Nr).
  - rewrite (phi_over white (bright_dec m im x y w h t) (bcontour b) (x - 1) (y - 1) c_after).
    + rewrite xorb_false_l. apply (proj2 (onC_spec (bcontour b) (sx, sy))). exact Sc.
    + intros y' L I. exact (No y' L (contour_bright _ _ b_out _ I)).
  - intros Wu. apply (No (sy - 1) ltac:(lia)). apply (b_next (sx, sy)); [exact Hs|apply adjacent_sym, near_adjacent, Nr|exact Wu].
  - exact (b_white _ Hs).
Qed.
Lemma leaves p q : In p (bpoints b) -> near q p -> ~ white q -> number q = false -> In p (bcontour b).
Proof.
  intros Hp N Hq E. pose proof (number_in p Hp) as T. unfold number in *.
  rewrite (phi_enter white (bright_dec m im x y w h t) (bcontour b) (x - 1) (y - 1) c_white c_after c_grows q p N Hq (b_white p Hp)) in T.
  rewrite E, xorb_false_l in T. apply (proj1 (onC_spec (bcontour b) p)). exact T.
Qed.
Lemma no_column cx : (forall p, In p (bpoints b) -> fst p <> cx) -> forall cy, number (cx, cy) = false.
Proof.
  intros H cy. apply (phi_column white _ (bcontour b) (x - 1) (y - 1) c_after). intros y' I.
  apply (H (cx, y')); [exact (contour_bright _ _ b_out _ I)|reflexivity].
Qed.
Lemma no_row cy : (forall p, In p (bpoints b) -> snd p <> cy) -> forall cx, number (cx, cy) = false.
Proof.
  intros H cx. apply (phi_row white _ (bcontour b) (x - 1) (y - 1) c_white c_after c_grows). intros x' I.
  apply (H (x', cy)); [exact (contour_bright _ _ b_out _ I)|reflexivity].
Qed.
Lemma contour_extremes p : In p (bpoints b) ->
  (forall q, In q (bpoints b) -> fst q <= fst p) \/ (forall q, In q (bpoints b) -> fst p <= fst q) \/
  (forall q, In q (bpoints b) -> snd q <= snd p) \/ (forall q, In q (bpoints b) -> snd p <= snd q) -> In p (bcontour b).
Proof.
  intros Hp H. destruct p as [px' py']. cbn [fst snd] in H.
  assert (G : forall q, near q (px', py') -> ~ In q (bpoints b) -> number q = false -> In (px', py') (bcontour b)).
  { intros q N Nq E. apply (leaves _ q Hp N); [|exact E]. intros Wq. apply Nq.
    apply (b_next (px', py')); [exact Hp|apply adjacent_sym, near_adjacent, N|exact Wq]. }
  destruct H as [H|[H|[H|H]]].
  - apply (G (px' + 1, py')); [unfold near; cbn [fst snd]; lia|intros I; apply H in I; cbn [fst snd] in I; lia|].
    apply no_column. intros q I. apply H in I. lia.
  - apply (G (px' - 1, py')); [unfold near; cbn [fst snd]; lia|intros I; apply H in I; cbn [fst snd] in I; lia|].
    apply no_column. intros q I. apply H in I. lia.
  - apply (G (px', py' + 1)); [unfold near; cbn [fst snd]; lia|intros I; apply H in I; cbn [fst snd] in I; lia|].
    apply no_row. intros q I. apply H in I. lia.
  - apply (G (px', py' - 1)); [unfold near; cbn [fst snd]; lia|intros I; apply H in I; cbn [fst snd] in I; lia|].
    apply no_row. intros q I. apply H in I. lia.
Qed.
End CONTOUR.

Lemma far_point (f : Z * Z -> Z) l : l <> [] -> exists p, In p l /\ forall q, In q l -> f q <= f p.
Proof.
  intros Hn. assert (Hm : map f l <> []) by (destruct l; [contradiction|discriminate]).
  destruct (list_max_spec _ Hm) as (M1 & M2). apply in_map_iff in M1. destruct M1 as (p & E & I).
  exists p. split; [exact I|]. intros q Hq. rewrite E. apply M2, in_map, Hq.
Qed.
(** The blobs that pass the limits are among the blobs found. *)
Lemma keep_sub {T} c lt (p : limits T) f : forall l r, keep c lt p f l = Ok r -> forall i, In i r -> exists j, In j l /\ iblob j = iblob i.
Proof.
  induction l as [|a l IH]; intros r E i Hi.
  - cbn [keep] in E. assert (r = []) by congruence. subst r. destruct Hi.
  - cbn [keep] in E. destruct (f (iblob a)) as [v| | |]; try discriminate. cbn [bind] in E.
    destruct (keep c lt p f l) as [r'| | |] eqn:E'; try discriminate. cbn [bind] in E.
    assert (K : In i r' -> exists j, In j (a :: l) /\ iblob j = iblob i).
    { intros H. destruct (IH r' eq_refl i H) as (j & J1 & J2). exists j. split; [right; exact J1|exact J2]. }
    destruct (removed lt p v).
    + assert (r' = r) by congruence. subst r'. apply K, Hi.
    + assert (r = computed c a :: r') by congruence. subst r. destruct Hi as [<-|Hi]; [|apply K, Hi].
      exists a. split; [left; reflexivity|reflexivity].
Qed.
Lemma stage_sub {T} c lt (p : limits T) f l r : stage c lt p f l = Ok r -> forall i, In i r -> exists j, In j l /\ iblob j = iblob i.
Proof.
  unfold stage. destruct (enabled p); [apply keep_sub|]. intros E i Hi. assert (l = r) by congruence. subst l. eauto.
Qed.
Lemma select_sub lm p l r : select lm p l = Ok r -> forall i, In i r -> exists j, In j l /\ iblob j = iblob i.
Proof.
  unfold select. intros E.
  destruct (stage ByCircularity _ _ _ l) as [l1| | |] eqn:E1; try discriminate. cbn [bind] in E.
  destruct (stage ByElongation _ _ _ l1) as [l2| | |] eqn:E2; try discriminate. cbn [bind] in E.
  destruct (stage ByHeight _ _ _ l2) as [l3| | |] eqn:E3; try discriminate. cbn [bind] in E.
  destruct (stage ByLength _ _ _ l3) as [l4| | |] eqn:E4; try discriminate. cbn [bind] in E.
  destruct (stage BySize _ _ _ l4) as [l5| | |] eqn:E5; try discriminate. cbn [bind] in E.
  intros i Hi. destruct (stage_sub _ _ _ _ _ _ E i Hi) as (i5 & I5 & J5). destruct (stage_sub _ _ _ _ _ _ E5 i5 I5) as (i4 & I4 & J4).
  destruct (stage_sub _ _ _ _ _ _ E4 i4 I4) as (i3 & I3 & J3). destruct (stage_sub _ _ _ _ _ _ E3 i3 I3) as (i2 & I2 & J2).
  destruct (stage_sub _ _ _ _ _ _ E2 i2 I2) as (i1 & I1 & J1). destruct (stage_sub _ _ _ _ _ _ E1 i1 I1) as (i0 & I0 & J0).
  exists i0. split; [exact I0|congruence].
Qed.
Lemma find_sub lm m im x y w h p t l l0 : find lm m im x y w h no_limits t = Ok l0 -> find lm m im x y w h p t = Ok l ->
  forall i, In i l -> exists j, In j l0 /\ iblob j = iblob i.
Proof.
  unfold find. destruct (valid_roi im x y w h); [|discriminate]. destruct (is_gray im); [|discriminate].
  change (verify_all no_limits) with true. cbv iota.
  destruct (mark m im x y w h t (new_map w h)) as [mp| | |]; try discriminate. cbn [bind].
  destruct (collect w h x y mp) as [r| | |]; try discriminate. cbn [bind]. rewrite select_none. intros E0.
  destruct (verify_all p); [|discriminate]. intros E. assert (l0 = map fresh (snd r)) as -> by congruence. apply select_sub with (1 := E).
Qed.
Lemma contour_not_empty white b : outlines white b -> bcontour b <> [].
Proof.
  intros (_ & _ & _ & s & _ & _ & _ & Hc) E. assert (I : In s (bcontour b)) by (apply Hc; constructor). rewrite E in I. destruct I.
Qed.
Theorem C180_area : C180_claim.
Proof.
  intros lm m im x y w h par t l1 A C Hsz E1 i1 Hi1 hist o Eh. destruct (contour_area lm m im x y w h t A C Hsz) as (l & Hl & Hc).
  destruct (C60_components_partial lm m im x y w h t A C Hsz) as (l' & Hl' & (Hcov & _ & Hone) & Ho).
  assert (l' = l) by congruence. subst l'. revert Eh. destruct (find_sub lm m im x y w h par t l1 l Hl E1 i1 Hi1) as (i & Hi & <-). intros Eh.
  destruct (Hc i Hi) as (a & E & (Sin & SL & SR & ST & SB) & EW & EH & _ & Sub).
  pose proof (in_map iblob _ _ Hi) as Hb. destruct (Hone _ Hb) as (Hne & Hlk).
  destruct (C179_history lm (iblob i) hist o Hne (contour_not_empty _ _ (Ho i Hi)) Eh) as (Get & _).
  exists a. unfold answers. rewrite !Get. split; [exact E|]. split; [|split; assumption].
  assert (Hw : forall p, In p (bpoints (iblob i)) -> bright m im x y w h t p) by (intros p Hp; apply Hcov; eauto).
  pose proof (contour_extremes m im x y w h t (iblob i) Hw Hlk (Ho i Hi)) as X. set (P := bpoints (iblob i)) in *.
  destruct (far_point fst P Hne) as (pr & Pr & Mr). destruct (far_point snd P Hne) as (pb & Pb & Mb).
  destruct (far_point (fun p => - fst p) P Hne) as (pl & Pl & Ml). destruct (far_point (fun p => - snd p) P Hne) as (pt & Pt & Mt).
  assert (Xl : In pl (bcontour (iblob i))) by (apply X; [exact Pl|right; left; intros q Hq; specialize (Ml q Hq); lia]).
  assert (Xr : In pr (bcontour (iblob i))) by (apply X; [exact Pr|left; exact Mr]).
  assert (Xb : In pb (bcontour (iblob i))) by (apply X; [exact Pb|right; right; left; exact Mb]).
  assert (Xt : In pt (bcontour (iblob i))) by (apply X; [exact Pt|right; right; right; intros q Hq; specialize (Mt q Hq); lia]).
  split; [|split; [|split; [|split]]].
  - intros p Hp. specialize (Ml p Hp). specialize (Mr p Hp). specialize (Mt p Hp). specialize (Mb p Hp). cbv beta in Ml, Mt.
    apply Sin in Xl, Xr, Xb, Xt. lia.
  - destruct SL as (p & I & Ep). exists p. split; [apply Sub, I|exact Ep].
  - destruct SR as (p & I & Ep). exists p. split; [apply Sub, I|exact Ep].
  - destruct ST as (p & I & Ep). exists p. split; [apply Sub, I|exact Ep].
  - destruct SB as (p & I & Ep). exists p. split; [apply Sub, I|exact Ep].
Qed.
Definition wide2 : parameters :=
  mkParameters (mkLimits None None) (mkLimits None None) (mkLimits (Some 2) None) (mkLimits None None) (mkLimits None None) (mkLimits None None).
Example C180_case : (exists l, find zero_libm picture (img 1 7 5 1 8) 1 1 5 4 wide2 8 = Ok l /\ l <> []) /\
  (forall l, find zero_libm picture (img 1 7 5 1 8) 1 1 5 4 wide2 8 = Ok l -> forall i, In i l ->
   forall hist o, asks zero_libm hist (new_info (iblob i)) = Ok o ->
    exists a, answers zero_libm QArea o = Ok (AArea a) /\ smallest (bpoints (iblob i)) a /\
      answers zero_libm QWidth o = Ok (AInt (a_right a - a_left a)) /\
      answers zero_libm QHeight o = Ok (AInt (a_bottom a - a_top a))) /\
  (do o <- asks zero_libm [(true, QWidth); (false, QArea)] (new_info square3); answers zero_libm QWidth o) = Ok (AInt 3).
Proof.
  split; [|split].
  - assert (N : match find zero_libm picture (img 1 7 5 1 8) 1 1 5 4 wide2 8 with Ok (_ :: _) => true | _ => false end = true) by (vm_compute; reflexivity).
    destruct (find zero_libm picture (img 1 7 5 1 8) 1 1 5 4 wide2 8) as [[|i l]| | |]; try discriminate.
    exists (i :: l). split; [reflexivity|discriminate].
  - intros l. apply C180_area; [solve_area|reflexivity|rewrite W32_val; lia].
  - vm_compute. reflexivity.
Qed.
Example C180_square : answers zero_libm QArea (new_info square3) = Ok (AArea (mkArea 4 7 7 10)).
Proof. reflexivity. Qed.
Print Assumptions C180_area.

(** ** C181: isSolid *)

(** A dark pixel of the region from which no path of dark pixels (sideways, up and down) leaves it. *)
Definition beside (p q : Z * Z) : Prop := Z.abs (fst p - fst q) + Z.abs (snd p - snd q) = 1.
Inductive escapes (white : Z * Z -> Prop) (x y w h : Z) : Z * Z -> Prop :=
  | esc_out p : ~ (x <= fst p < x + w /\ y <= snd p < y + h) -> escapes white x y w h p
  | esc_step p q : ~ white p -> beside p q -> escapes white x y w h q -> escapes white x y w h p.
Definition has_hole (white : Z * Z -> Prop) (x y w h : Z) (b : blob) : Prop :=
  exists p q, ~ white p /\ ~ escapes white x y w h p /\ adjacent p q /\ In q (bpoints b).
Definition C181_claim : Prop := forall lm m im x y w h t,
  area m im x y w h -> icc im = 1 -> (w + 2) * (h + 1) < W32 ->
  exists l, find lm m im x y w h no_limits t = Ok l /\ forall i, In i l ->
    (isSolid (iblob i) = true <-> ~ has_hole (bright m im x y w h t) x y w h (iblob i)).
(** What it says: every edge point of the blob can be reached along the edge from the first point. *)
Theorem C181_edges_partial lm m im x y w h t :
  area m im x y w h -> icc im = 1 -> (w + 2) * (h + 1) < W32 ->
  exists l, find lm m im x y w h no_limits t = Ok l /\ forall i, In i l ->
    exists s, In s (bpoints (iblob i)) /\ (forall p, In p (bpoints (iblob i)) -> reads_before s p) /\
      let edge p := In p (bpoints (iblob i)) /\ exists q, adjacent p q /\ ~ bright m im x y w h t q in
      (isSolid (iblob i) = true <-> forall p, edge p -> linked edge s p).
Proof.
  intros A C Hsz. destruct (C60_components_partial lm m im x y w h t A C Hsz) as (l & Hl & _ & Ho).
  exists l. split; [exact Hl|]. intros i Hi. destruct (Ho i Hi) as (NE & He & NC & s & Hs & Hfirst & Hse & Hc).
  exists s. split; [exact Hs|]. split; [exact Hfirst|]. cbv zeta.
  assert (L : forall S1 S2 : Z * Z -> Prop, (forall p, S1 p -> S2 p) -> forall p, linked S1 s p -> linked S2 s p).
  { intros S1 S2 H p Hp. induction Hp; [constructor|]. eapply linked_step; eauto. }
  assert (Sub : incl (bcontour (iblob i)) (bedges (iblob i))).
  { intros p Hp. apply Hc in Hp. apply (linked_in (fun q => In q (bedges (iblob i))) s p Hse Hp). }
  unfold isSolid. rewrite Nat.eqb_eq. split.
  - intros E p Hp. apply He in Hp.
    assert (I : incl (bedges (iblob i)) (bcontour (iblob i))) by (apply NoDup_length_incl; [exact NC|lia|exact Sub]).
    apply I, Hc in Hp. revert Hp. apply L. intros q Hq. apply He, Hq.
  - intros H. apply Nat.le_antisymm; [apply NoDup_incl_length; assumption|].
    apply NoDup_incl_length; [exact NE|]. intros p Hp. apply Hc. apply He in Hp. apply H in Hp. revert Hp. apply L.
    intros q Hq. apply He, Hq.
Qed.
(** A point with a neighbour from which one can leave the region through dark pixels is on the contour. *)
Lemma outer_edge m im x y w h t b :
  (forall p, In p (bpoints b) -> bright m im x y w h t p) ->
  (forall p, In p (bpoints b) -> forall q, In q (bpoints b) <-> linked (bright m im x y w h t) p q) ->
  outlines (bright m im x y w h t) b ->
  forall p d, In p (bpoints b) -> adjacent p d -> escapes (bright m im x y w h t) x y w h d -> In p (bcontour b).
Proof.
  intros Hw Hlk Ho p d Hp Apd Esc. set (white := bright m im x y w h t) in *.
  pose proof (leaves m im x y w h t b Hw Hlk Ho) as Lv. fold white in Lv.
  pose proof (c_grows m im x y w h t b Hlk Ho) as Gr. fold white in Gr.
  pose proof (b_next m im x y w h t b Hlk) as Nx. fold white in Nx.
  assert (Ed : forall q, escapes white x y w h q -> ~ white q).
  { intros q [q' O|q' r N _ _]; [|exact N]. intros (W1 & W2 & _). apply O. split; assumption. }
  assert (Es : forall q, escapes white x y w h q -> phi white (bright_dec m im x y w h t) (bcontour b) (y - 1) q = false).
  { intros q Hq. induction Hq as [[qx qy] O|q r N Bs Hr IH].
    - cbn [fst snd] in O. destruct (Z_le_dec x qx), (Z_lt_dec qx (x + w)); [|apply (no_column m im x y w h t b Hw Ho) ..].
      + apply (no_row m im x y w h t b Hw Hlk Ho). intros r Hr. destruct (Hw r Hr) as (W1 & W2 & _). lia.
      + intros r Hr. destruct (Hw r Hr) as (W1 & W2 & _). lia.
      + intros r Hr. destruct (Hw r Hr) as (W1 & W2 & _). lia.
      + intros r Hr. destruct (Hw r Hr) as (W1 & W2 & _). lia.
    - rewrite (phi_dark white (bright_dec m im x y w h t) (bcontour b) (x - 1) (y - 1)
        (c_white m im x y w h t b Hw Ho) (c_after m im x y w h t b Hw Ho) Gr q r N (Ed r Hr) Bs). exact IH. }
  assert (L4 : forall p q, In p (bpoints b) -> near q p -> escapes white x y w h q -> In p (bcontour b)).
  { intros q r Hq N Hr. apply (Lv q r Hq N (Ed r Hr) (Es r Hr)). }
  assert (Nd : ~ white d) by (apply Ed, Esc).
  assert (K : near d p \/ exists r, near r d /\ near r p).
  { destruct p as [a c], d as [a' c']. destruct Apd as (Ne & A1 & A2). cbn [fst snd] in A1, A2. unfold near. cbn [fst snd].
    destruct (Z.eq_dec a a') as [->|Na]; [left; assert (c <> c') by congruence; lia|].
    destruct (Z.eq_dec c c') as [->|Nc]; [left; lia|]. right. exists (a, c'). cbn [fst snd]. lia. }
  destruct K as [K|(r & K1 & K2)]; [exact (L4 p d Hp K Esc)|].
  assert (K1' : near d r) by (unfold near in *; lia).
  destruct (bright_dec m im x y w h t r) as [Wr|Nr].
  - assert (Pr : In r (bpoints b)) by (apply (Nx p r Hp); [apply adjacent_sym, near_adjacent, K2|exact Wr]).
    pose proof (L4 r d Pr K1' Esc) as Cr.
    apply (Gr r p d Cr); [apply near_adjacent, K2|exact (Hw p Hp)|exact Apd|exact Nd].
  - apply (L4 p r Hp K2). apply esc_step with d; [exact Nr|exact K1|exact Esc].
Qed.
(** A blob without a hole is called solid. *)
Theorem C181_solid_partial lm m im x y w h p t l :
  area m im x y w h -> icc im = 1 -> (w + 2) * (h + 1) < W32 ->
  find lm m im x y w h p t = Ok l -> forall i, In i l ->
    ~ has_hole (bright m im x y w h t) x y w h (iblob i) -> isSolid (iblob i) = true.
Proof.
  intros A C Hsz E1 i1 Hi1. destruct (C60_components_partial lm m im x y w h t A C Hsz) as (l' & Hl & (Hcov & _ & Hone) & Ho).
  destruct (find_sub lm m im x y w h p t l l' Hl E1 i1 Hi1) as (i & Hi & <-).
  intros NH. pose proof (in_map iblob _ _ Hi) as Hb. destruct (Hone _ Hb) as (_ & Hlk).
  assert (Hw : forall p, In p (bpoints (iblob i)) -> bright m im x y w h t p) by (intros q Hq; apply Hcov; eauto).
  pose proof (outer_edge m im x y w h t (iblob i) Hw Hlk (Ho i Hi)) as Out. set (b := iblob i) in *.
  destruct (Ho i Hi) as (NE & He & NC & s & Hs & Hf & Hse & Hc). fold b in NE, He, NC, Hs, Hf, Hse, Hc.
  unfold isSolid. apply Nat.eqb_eq. apply Nat.le_antisymm.
  { apply NoDup_incl_length; [exact NC|]. intros q Hq. apply Hc in Hq. exact (linked_in (fun q => In q (bedges b)) s q Hse Hq). }
  apply NoDup_incl_length; [exact NE|]. intros q Hq. apply He in Hq. destruct Hq as (Hq & d & Apd & Nd).
  destruct (in_dec peq q (bcontour b)) as [I|NI]; [exact I|]. exfalso. apply NH. exists d, q.
  split; [exact Nd|]. split; [|split; [apply adjacent_sym, Apd|exact Hq]]. intros Esc. exact (NI (Out q d Hq Apd Esc)).
Qed.
Definition full_picture : mem := fun b => mkBlock 12 (fun _ => 9).
Example C181_solid_case : exists l, find zero_libm full_picture (img 1 4 3 1 4) 0 0 4 3 no_limits 1 = Ok l /\ l <> [] /\
  forall i, In i l -> ~ has_hole (bright full_picture (img 1 4 3 1 4) 0 0 4 3 1) 0 0 4 3 (iblob i) /\ isSolid (iblob i) = true.
Proof.
  destruct (find zero_libm full_picture (img 1 4 3 1 4) 0 0 4 3 no_limits 1) as [l| | |] eqn:E; [|vm_compute in E; discriminate E ..].
  exists l. split; [reflexivity|]. split.
  - intros ->. assert (N : match find zero_libm full_picture (img 1 4 3 1 4) 0 0 4 3 no_limits 1 with Ok [] => true | _ => false end = false) by (vm_compute; reflexivity).
    rewrite E in N. discriminate.
  - intros i Hi. assert (G : ~ has_hole (bright full_picture (img 1 4 3 1 4) 0 0 4 3 1) 0 0 4 3 (iblob i)).
    { intros (p & q & Np & Ne & _). apply Ne. apply esc_out. intros [I1 I2]. apply Np. split; [exact I1|]. split; [exact I2|].
      change (pixel full_picture (img 1 4 3 1 4) (fst p) (snd p) 0) with 9. lia. }
    split; [exact G|]. revert E i Hi G. apply C181_solid_partial; [solve_area|reflexivity|rewrite W32_val; lia].
Qed.
(** A ring of one pixel around a hole is called solid. *)
Definition ring_picture : mem := fun b => mkBlock 25 (fun o => nth (Z.to_nat o)
  [0;0;0;0;0; 0;9;9;9;0; 0;9;0;9;0; 0;9;9;9;0; 0;0;0;0;0] 0).
Definition thick_ring : mem := fun b => mkBlock 49 (fun o => nth (Z.to_nat o)
  [9;9;9;9;9;9;9; 9;9;9;9;9;9;9; 9;9;9;9;9;9;9; 9;9;9;0;9;9;9; 9;9;9;9;9;9;9; 9;9;9;9;9;9;9; 9;9;9;9;9;9;9] 0).
Example C181_case : (match find zero_libm ring_picture (img 1 5 5 1 5) 0 0 5 5 no_limits 1 with
    | Ok l => map (fun i => (length (bpoints (iblob i)), isSolid (iblob i))) l | _ => [] end = [(8%nat, true)]) /\
  (match find zero_libm thick_ring (img 1 7 7 1 7) 0 0 7 7 no_limits 1 with
    | Ok l => map (fun i => (length (bpoints (iblob i)), isSolid (iblob i))) l | _ => [] end = [(48%nat, false)]).
Proof. split; vm_compute; reflexivity. Qed.
Theorem C181_thin_ring_refuted : ~ C181_claim.
Proof.
  intros H. destruct (H zero_libm ring_picture (img 1 5 5 1 5) 0 0 5 5 1) as (l & E & K); [solve_area|reflexivity|rewrite W32_val; lia|].
  assert (N : match find zero_libm ring_picture (img 1 5 5 1 5) 0 0 5 5 no_limits 1 with
    | Ok (i :: _) => isSolid (iblob i) && existsb (fun p => (fst p =? 1) && (snd p =? 1)) (bpoints (iblob i)) | _ => false end = true) by (vm_compute; reflexivity).
  rewrite E in N. destruct l as [|i l]; [discriminate|]. apply andb_true_iff in N. destruct N as [N1 N2].
  apply (K i (or_introl eq_refl)) in N1. apply N1. apply existsb_exists in N2. destruct N2 as ([u v] & Hin & Huv).
  cbn [fst snd] in Huv. apply andb_true_iff in Huv. destruct Huv as [Hu Hv]. apply Z.eqb_eq in Hu, Hv. subst u v.
  exists (2, 2), (1, 1). split; [|split; [|split; [|exact Hin]]].
  - intros (_ & _ & B). change (pixel ring_picture (img 1 5 5 1 5) (fst (2, 2)) (snd (2, 2)) 0) with 0 in B. lia.
  - intros Esc. assert (G : forall p, escapes (bright ring_picture (img 1 5 5 1 5) 0 0 5 5 1) 0 0 5 5 p -> p <> (2, 2)).
    { intros p Hp. induction Hp as [p Ho|p q Np Bs Hq IH].
      - intros ->. apply Ho. cbn [fst snd]. lia.
      - intros ->. unfold beside in Bs. cbn [fst snd] in Bs.
        assert (W : q = (1, 2) \/ q = (3, 2) \/ q = (2, 1) \/ q = (2, 3)).
        { destruct q as [u v]. cbn [fst snd] in Bs.
          assert (D : (u = 1 /\ v = 2) \/ (u = 3 /\ v = 2) \/ (u = 2 /\ v = 1) \/ (u = 2 /\ v = 3)) by lia.
          destruct D as [[-> ->]|[[-> ->]|[[-> ->]|[-> ->]]]]; auto. }
        assert (Wq : bright ring_picture (img 1 5 5 1 5) 0 0 5 5 1 q).
        { destruct W as [->|[->|[->| ->]]]; unfold bright; cbn [fst snd];
            (split; [lia|]); (split; [lia|]);
            match goal with |- 1 <= ?v => change v with 9; lia end. }
        destruct Hq as [q Ho|q r Nq _ _]; [|contradiction]. apply Ho. destruct Wq as (W1 & W2 & _). split; assumption. }
    exact (G _ Esc eq_refl).
  - unfold adjacent. cbn [fst snd]. split; [discriminate|]. lia.
Qed.
Print Assumptions C181_edges_partial.
Print Assumptions C181_solid_partial.
Print Assumptions C181_thin_ring_refuted.
