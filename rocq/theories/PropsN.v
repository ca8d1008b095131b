(** Properties C74, C95 and C96: the linear system solver. *)
From Coq Require Import ZArith List Bool Lia Reals Lra.
From Verif Require Import Base BaseProofs Double Edge Filter Arith Math HaarProofs GaussProofs GaussExact.
From Coq Require Import Floats.SpecFloat.
Import ListNotations.
Open Scope Z_scope.

(** y solves the n x n system with rows stored one after the other; [rsum n g] is
    g 0 + ... + g (n - 1) *)
Definition is_solution (n : Z) (m b : arr R) (y : Z -> R) : Prop :=
  forall r, 0 <= r < n -> rsum (Z.to_nat n) (fun c => aget m (c + r * n) * y c)%R = aget b r.
Definition valid_system {X} (n : Z) (m b : arr X) : Prop := 2 <= n < 2 ^ 32 /\ alen m = n * n /\ alen b = n.

Lemma solve_cases tiny n m b roots : (0 < tiny)%R -> valid_system n m b -> n <= alen roots ->
  (exists v, getMatrixRoots exact tiny m b roots = Ok v /\ alen v = alen roots /\
     (forall y, is_solution n m b y <-> forall c, 0 <= c < n -> y c = aget v c) /\
     (forall k, ~ 0 <= k < n -> aget v k = aget roots k)) \/
  (getMatrixRoots exact tiny m b roots = Throw tt /\
     exists y c, 0 <= c < n /\ y c = 1%R /\
       forall r, 0 <= r < n -> (Rabs (rsum (Z.to_nat n) (fun c => aget m (c + r * n)%Z * y c)) < tiny)%R).
Proof.
  intros Ht (Hn & Lm & Lb) Hl.
  exact (getMatrixRoots_exact tiny Ht n (proj1 Hn) (fun r c => aget m (c + r * n)) (aget b) m b roots
    ltac:(nia) (conj Lm (fun r c _ _ => eq_refl)) (conj Lb (fun c _ => eq_refl)) Hl).
Qed.

(** ** C74 *)

(** What is returned is the only solution; elements of the vector beyond the system stay. *)
Theorem C74_solves tiny n m b roots v : (0 < tiny)%R -> valid_system n m b -> n <= alen roots ->
  getMatrixRoots exact tiny m b roots = Ok v ->
  (forall y, is_solution n m b y <-> forall c, 0 <= c < n -> y c = aget v c) /\
  alen v = alen roots /\ (forall k, ~ 0 <= k < n -> aget v k = aget roots k).
Proof.
  intros Ht V Hl E. destruct (solve_cases tiny n m b roots Ht V Hl) as [(w & E' & L & S & K)|(E' & _)]; rewrite E in E'.
  - injection E' as <-. auto.
  - discriminate E'.
Qed.
(** It throws only if the matrix shrinks some vector with an entry 1 to entries below [tiny]. *)
Theorem C74_throws tiny n m b roots : (0 < tiny)%R -> valid_system n m b -> n <= alen roots ->
  getMatrixRoots exact tiny m b roots = Throw tt ->
  exists y c, 0 <= c < n /\ y c = 1%R /\
    forall r, 0 <= r < n -> (Rabs (rsum (Z.to_nat n) (fun c => aget m (c + r * n)%Z * y c)) < tiny)%R.
Proof.
  intros Ht V Hl E. destruct (solve_cases tiny n m b roots Ht V Hl) as [(w & E' & _)|(_ & H)]; [rewrite E in E'; discriminate E'|exact H].
Qed.
(** A matrix that maps some vector other than 0 to 0 is reported. *)
Theorem C74_singular tiny n m b roots y k : (0 < tiny)%R -> valid_system n m b -> n <= alen roots ->
  0 <= k < n -> y k <> 0%R -> (forall r, 0 <= r < n -> rsum (Z.to_nat n) (fun c => aget m (c + r * n) * y c)%R = 0%R) ->
  getMatrixRoots exact tiny m b roots = Throw tt.
Proof.
  intros Ht V Hl Hk Hy H0. destruct (solve_cases tiny n m b roots Ht V Hl) as [(v & E & _ & S & _)|(E & _)]; [exfalso|exact E].
  assert (S0 : is_solution n m b (aget v)) by (apply S; auto).
  assert (S1 : is_solution n m b (fun c => aget v c - y c * (-1))%R).
  { intros r Hr. rewrite <- (S0 r Hr). specialize (H0 r Hr).
    rewrite (rsum_ext _ _ (fun c => aget m (c + r * n) * aget v c - aget m (c + r * n) * y c * (-1))%R).
    - rewrite (rsum_lin _ (fun c => aget m (c + r * n) * aget v c)%R (fun c => aget m (c + r * n) * y c)%R (-1)). lra.
    - intros c Hc. ring. }
  pose proof (proj1 (S _) S1 k Hk) as E1. cbv beta in E1. lra.
Qed.
(** For every number type: the call returns or throws, and stays inside its vectors. *)
Theorem C74_safe A tiny n m b roots : valid_system n m b -> n <= alen roots ->
  (exists v, getMatrixRoots A tiny m b roots = Ok v) \/ getMatrixRoots A tiny m b roots = Throw tt.
Proof.
  intros (Hn & Lm & Lb) Hl. unfold getMatrixRoots. rewrite Lm, Lb.
  rewrite u64_small by (change W64 with (2 ^ 64); nia).
  destruct ((n * n =? 0) || (n =? 0) || negb (n * n =? n * n) || (n <? 2)); [auto|].
  destruct (indices_ok n (proj1 Hn)) as (x & Ex & Hx). rewrite Ex. cbn [bind].
  destruct (direct_rule A tiny n (proj1 Hn) (fun _ _ x _ => exists rho : Z -> Z, forall c, 0 <= c < n -> 0 <= x c < n /\ rho (x c) = c) True
    (m, x, b) (fun r c => aget m (c + r * n)) (fun c => c) (aget b)) as [([[m' x'] t'] & f' & xf & tf & E & (M' & X' & T') & rho & I)|(E & H)].
  - split; [split; [exact Lm|reflexivity]|]. split; [exact Hx|split; [exact Lb|reflexivity]].
  - exists (fun c => c). auto.
  - intros i f xf t r c a Hi (rho & HI) Hr Hc _ _. destruct (alt A a tiny); [exact I|].
    exists (fun k => tr i c (rho k)). intros k Hk. destruct (HI (tr i c k)) as (H1 & H2); [apply tr_range; lia|].
    split; [exact H1|]. rewrite H2. apply tr_tr.
  - left. cbn [fst snd] in *. rewrite E. cbn [bind].
    destruct (inverse_method_ok A tiny n (proj1 Hn) m' f' t' tf M' T') as (u & Eu & Lu). rewrite Eu. cbn [bind].
    destruct (results_ok A n (proj1 Hn) x' xf u (aget u) roots X' (conj Lu (fun c _ => eq_refl)) Hl) as (v & Ev & _).
    + intros c Hc. apply I. exact Hc.
    + intros c d Hc Hd e. destruct (I c Hc) as (_ & <-). destruct (I d Hd) as (_ & <-). f_equal. exact e.
    + exists v. exact Ev.
  - right. rewrite E. reflexivity.
Qed.
(** Other sizes are rejected. *)
Theorem C74_rejects A tiny m b roots : 0 <= alen b < 2 ^ 32 -> alen m <> alen b * alen b \/ alen b < 2 ->
  getMatrixRoots A tiny m b roots = Throw tt.
Proof.
  intros Hb H. unfold getMatrixRoots. rewrite u64_small by (change W64 with (2 ^ 64); nia).
  replace ((alen m =? 0) || (alen b =? 0) || negb (alen m =? alen b * alen b) || (alen b <? 2)) with true; [reflexivity|].
  destruct H as [H|H].
  - apply Z.eqb_neq in H. rewrite H. cbn [negb]. rewrite orb_true_r. reflexivity.
  - apply Z.ltb_lt in H. rewrite H. rewrite orb_true_r. reflexivity.
Qed.

(** 2 x + y = 3, x + 3 y = 5 is solved, the zero matrix is reported. *)
Definition regular : arr R := mkArr 4 (fun i => if i =? 0 then 2 else if i =? 3 then 3 else 1)%R.
Definition right : arr R := mkArr 2 (fun i => if i =? 0 then 3 else 5)%R.
Lemma regular_valid : valid_system 2 regular right.
Proof. split; [|split; reflexivity]. lia. Qed.
Example C74_case : exists v, getMatrixRoots exact (1 / 10000000000)%R regular right (mkArr 2 (fun _ => 0%R)) = Ok v /\
  aget v 0 = (4 / 5)%R /\ aget v 1 = (7 / 5)%R.
Proof.
  assert (T : (0 < 1 / 10000000000)%R) by lra.
  destruct (solve_cases _ 2 regular right (mkArr 2 (fun _ => 0%R)) T regular_valid) as [(v & E & _ & S & _)|(_ & y & c & Hc & Hy & H)]; [cbn; lia| |].
  - exists v. split; [exact E|].
    assert (K : is_solution 2 regular right (fun c => if c =? 0 then 4 / 5 else 7 / 5)%R).
    { intros r Hr. assert (D : r = 0 \/ r = 1) by lia. destruct D as [-> | ->]; change (Z.to_nat 2) with 2%nat; cbn; lra. }
    pose proof (proj1 (S _) K 0 ltac:(lia)) as E0. pose proof (proj1 (S _) K 1 ltac:(lia)) as E1. cbn in E0, E1. split; symmetry; assumption.
  - exfalso. pose proof (H 0 ltac:(lia)) as H0. pose proof (H 1 ltac:(lia)) as H1. change (Z.to_nat 2) with 2%nat in H0, H1. cbn in H0, H1.
    apply Rabs_def2 in H0, H1. assert (D : c = 0 \/ c = 1) by lia. destruct D as [-> | ->]; rewrite Hy in H0, H1; lra.
Qed.
Example C74_case_singular :
  getMatrixRoots exact (1 / 10000000000)%R (mkArr 4 (fun _ => 0%R)) right (mkArr 2 (fun _ => 0%R)) = Throw tt.
Proof.
  apply (C74_singular _ 2 _ _ _ (fun _ => 1%R) 0); try lra; try lia.
  - split; [lia|split; reflexivity].
  - cbn. lia.
  - intros r Hr. change (Z.to_nat 2) with 2%nat. cbn. lra.
Qed.
Print Assumptions C74_solves.
Print Assumptions C74_throws.
Print Assumptions C74_singular.
Print Assumptions C74_safe.
Print Assumptions C74_rejects.

(** ** C95 *)

(** The caller need not give the vector of roots a size. *)
Definition C95_claim : Prop := forall n m b roots, valid_system n m b ->
  getMatrixRoots (ieee DOUBLE) tiny_d m b roots <> UB.
(** The identity matrix and an empty vector. *)
Theorem C95_claim_refuted : ~ C95_claim.
Proof.
  intros C.
  apply (C 2 (mkArr 4 (fun i => if (i =? 0) || (i =? 3) then tofZ DOUBLE 1 else tofZ DOUBLE 0)) (mkArr 2 (fun _ => tofZ DOUBLE 1))
    (mkArr 0 (fun _ => tofZ DOUBLE 0))).
  - split; [lia|split; reflexivity].
  - vm_compute. reflexivity.
Qed.
Print Assumptions C95_claim_refuted.

(** ** C96 *)

(** integer systems, exactly representable *)
Definition zsystem (n : Z) (a b : Z -> Z) : Prop :=
  (forall i, 0 <= i < n * n -> Z.abs (a i) <= 2 ^ 53) /\ (forall i, 0 <= i < n -> Z.abs (b i) <= 2 ^ 53).

(** In double arithmetic: roots are only returned for systems that have a solution. *)
Definition C96_claim : Prop := forall n a b roots v, 2 <= n < 2 ^ 32 -> zsystem n a b -> n <= alen roots ->
  getMatrixRoots (ieee DOUBLE) tiny_d (mkArr (n * n) (fun i => tofZ DOUBLE (a i))) (mkArr n (fun i => tofZ DOUBLE (b i))) roots = Ok v ->
  exists y, is_solution n (mkArr (n * n) (fun i => IZR (a i))) (mkArr n (fun i => IZR (b i))) y.

(** p x + 2 p y = 1, 49 p x + 98 p y = 0 with p = 2^34: 1/49 is rounded, and 49 p times it is
    not p; the difference, 2^-19, is no longer negligible. *)
Definition a96 (i : Z) : Z := nth (Z.to_nat i) [2 ^ 34; 2 ^ 35; 49 * 2 ^ 34; 49 * 2 ^ 35] 0.
Definition b96 (i : Z) : Z := if i =? 0 then 1 else 0.
Theorem C96_claim_refuted : ~ C96_claim.
Proof.
  intros C. set (z := mkArr 2 (fun _ : Z => tofZ DOUBLE 0)).
  assert (F : match getMatrixRoots (ieee DOUBLE) tiny_d (mkArr (2 * 2) (fun i => tofZ DOUBLE (a96 i))) (mkArr 2 (fun i => tofZ DOUBLE (b96 i))) z with
              | Ok _ => true | _ => false end = true) by (vm_compute; reflexivity).
  destruct (getMatrixRoots (ieee DOUBLE) tiny_d (mkArr (2 * 2) (fun i => tofZ DOUBLE (a96 i))) (mkArr 2 (fun i => tofZ DOUBLE (b96 i))) z)
    as [v| | |] eqn:E; try discriminate F.
  assert (Z : zsystem 2 a96 b96).
  { split; intros i Hi.
    - assert (D : i = 0 \/ i = 1 \/ i = 2 \/ i = 3) by lia. destruct D as [-> |[-> |[-> | ->]]]; vm_compute; discriminate.
    - unfold b96. destruct (i =? 0); vm_compute; discriminate. }
  assert (H2 : 2 <= 2 < 2 ^ 32) by lia. assert (L : 2 <= alen z) by (cbn; lia).
  destruct (C 2 a96 b96 z v H2 Z L E) as (y & Hy).
  pose proof (Hy 0 ltac:(lia)) as H0. pose proof (Hy 1 ltac:(lia)) as H1. clear - H0 H1.
  change (Z.to_nat 2) with 2%nat in H0, H1. cbn [rsum aget Z.of_nat] in H0, H1.
  change (0 + 0 * 2)%Z with 0%Z in *. change (Z.pos (Pos.of_succ_nat 0) + 0 * 2)%Z with 1%Z in *.
  change (0 + 1 * 2)%Z with 2%Z in *. change (Z.pos (Pos.of_succ_nat 0) + 1 * 2)%Z with 3%Z in *.
  change (a96 0) with (17179869184)%Z in *. change (a96 1) with (34359738368)%Z in *.
  change (a96 2) with (841813590016)%Z in *. change (a96 3) with (1683627180032)%Z in *.
  change (b96 0) with 1%Z in *. change (b96 1) with 0%Z in *. lra.
Qed.
Print Assumptions C96_claim_refuted.
