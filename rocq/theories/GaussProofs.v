(** The linear system solver as operations on matrices. *)
From Coq Require Import ZArith List Bool Lia.
From Verif Require Import Base BaseProofs Arith Math HaarProofs.
Import ListNotations.
Open Scope Z_scope.

(** Loop rule; the body may throw. *)
Lemma for_rule {S} (P : Z -> S -> Prop) (Q : Prop) (g : Z -> S -> res unit S) a b s : a <= b ->
  P a s ->
  (forall i t, a <= i < b -> P i t -> (exists t', g i t = Ok t' /\ P (i + 1) t') \/ (g i t = Throw tt /\ Q)) ->
  (exists s', for_ a b g s = Ok s' /\ P b s') \/ (for_ a b g s = Throw tt /\ Q).
Proof.
  intros Hab H0 Hs. unfold for_.
  assert (K : forall n k s, b = k + Z.of_nat n -> a <= k -> P k s ->
    (exists s', iterM n k g s = Ok s' /\ P b s') \/ (iterM n k g s = Throw tt /\ Q)).
  { induction n as [|n IH]; intros k t Hb Hk HP.
    - left. exists t. split; [reflexivity|]. replace b with k by lia. exact HP.
    - cbn [iterM]. destruct (Hs k t) as [(t' & E & H)|(E & H)]; [lia|exact HP| |]; rewrite E; cbn [bind].
      + apply IH; [lia|lia|exact H].
      + right. auto. }
  apply K; [lia|lia|exact H0].
Qed.
Lemma for_inv {S} (P : Z -> S -> Prop) (g : Z -> S -> res unit S) a b s : a <= b ->
  P a s ->
  (forall i t, a <= i < b -> P i t -> exists t', g i t = Ok t' /\ P (i + 1) t') ->
  exists s', for_ a b g s = Ok s' /\ P b s'.
Proof.
  intros Hab H0 Hs. destruct (for_rule P False g a b s Hab H0) as [H|(_ & [])]; auto.
Qed.

(** exchange of two numbers *)
Definition tr (a b k : Z) : Z := if k =? a then b else if k =? b then a else k.
Lemma tr_range a b n k : 0 <= a < n -> 0 <= b < n -> 0 <= k < n -> 0 <= tr a b k < n.
Proof. unfold tr. intros. destruct (k =? a), (k =? b); lia. Qed.
Lemma tr_tr a b k : tr a b (tr a b k) = k.
Proof.
  unfold tr. destruct (Z.eqb_spec k a); [subst; destruct (Z.eqb_spec b a); subst; auto; rewrite Z.eqb_refl; auto|].
  destruct (Z.eqb_spec k b); [subst; rewrite Z.eqb_refl; reflexivity|].
  destruct (Z.eqb_spec k a); [contradiction|]. destruct (Z.eqb_spec k b); [contradiction|reflexivity].
Qed.

Lemma ix_range n r c : 0 <= r < n -> 0 <= c < n -> 0 <= c + r * n < n * n.
Proof. intros. nia. Qed.
Lemma ix_inj n r c r' c' : 0 <= c < n -> 0 <= c' < n -> c + r * n = c' + r' * n -> r = r' /\ c = c'.
Proof. intros. assert (r = r') by nia. subst. split; lia. Qed.
Lemma ix_eqb n r c r' c' : 0 <= c < n -> 0 <= c' < n ->
  (c + r * n =? c' + r' * n) = (r =? r') && (c =? c').
Proof.
  intros H H'. destruct (Z.eqb_spec (c + r * n) (c' + r' * n)) as [e|e].
  - destruct (ix_inj _ _ _ _ _ H H' e) as [-> ->]. rewrite !Z.eqb_refl. reflexivity.
  - destruct (Z.eqb_spec r r'); destruct (Z.eqb_spec c c'); subst; auto; congruence.
Qed.

(** An n x n matrix, given by its entries (row, column), and a vector. *)
Definition mrep {X} n (m : arr X) (f : Z -> Z -> X) : Prop :=
  alen m = n * n /\ forall r c, 0 <= r < n -> 0 <= c < n -> aget m (c + r * n) = f r c.
Definition vrep {X} n (v : arr X) (f : Z -> X) : Prop :=
  alen v = n /\ forall c, 0 <= c < n -> aget v c = f c.

Lemma mrep_rd {X E} n (m : arr X) f r c : mrep n m f -> 0 <= r < n -> 0 <= c < n ->
  @rd E X m (c + r * n) = Ok (f r c).
Proof. intros [L H] Hr Hc. rewrite rd_ok; [rewrite H; auto|]. rewrite L. apply ix_range; auto. Qed.
Lemma mrep_wr {X E} n (m : arr X) f r c x : mrep n m f -> 0 <= r < n -> 0 <= c < n ->
  exists m', @wr E X m (c + r * n) x = Ok m' /\ mrep n m' (fun r' c' => if (r' =? r) && (c' =? c) then x else f r' c').
Proof.
  intros [L H] Hr Hc. rewrite wr_ok by (rewrite L; apply ix_range; auto). eexists. split; [reflexivity|].
  split; [rewrite alen_aset; exact L|]. intros r' c' Hr' Hc'. rewrite aget_aset, ix_eqb by auto. rewrite H by auto. reflexivity.
Qed.
Lemma mrep_ext {X} n (m : arr X) f g : mrep n m f -> (forall r c, 0 <= r < n -> 0 <= c < n -> f r c = g r c) -> mrep n m g.
Proof. intros [L H] E. split; [exact L|]. intros. rewrite H, E; auto. Qed.
Lemma mrep_swap {X E} n (m : arr X) f r1 c1 r2 c2 : mrep n m f ->
  0 <= r1 < n -> 0 <= c1 < n -> 0 <= r2 < n -> 0 <= c2 < n ->
  exists m', @swap E X m (c1 + r1 * n) (c2 + r2 * n) = Ok m' /\
    mrep n m' (fun r c => if (r =? r2) && (c =? c2) then f r1 c1
                          else if (r =? r1) && (c =? c1) then f r2 c2 else f r c).
Proof.
  intros M R1 C1 R2 C2. unfold swap. rewrite (mrep_rd n m f r1 c1), (mrep_rd n m f r2 c2) by auto. cbn [bind].
  destruct (@mrep_wr X E n m f r1 c1 (f r2 c2) M R1 C1) as (m1 & E1 & M1). rewrite E1. cbn [bind].
  destruct (@mrep_wr X E n m1 _ r2 c2 (f r1 c1) M1 R2 C2) as (m2 & E2 & M2). rewrite E2. eauto.
Qed.

Lemma vrep_rd {X E} n (v : arr X) f c : vrep n v f -> 0 <= c < n -> @rd E X v c = Ok (f c).
Proof. intros [L H] Hc. rewrite rd_ok by lia. rewrite H; auto. Qed.
Lemma vrep_wr {X E} n (v : arr X) f c x : vrep n v f -> 0 <= c < n ->
  exists v', @wr E X v c x = Ok v' /\ vrep n v' (fun c' => if c' =? c then x else f c').
Proof.
  intros [L H] Hc. rewrite wr_ok by lia. eexists. split; [reflexivity|].
  split; [exact L|]. intros c' Hc'. rewrite aget_aset, H; auto.
Qed.
Lemma vrep_ext {X} n (v : arr X) f g : vrep n v f -> (forall c, 0 <= c < n -> f c = g c) -> vrep n v g.
Proof. intros [L H] E. split; [exact L|]. intros. rewrite H, E; auto. Qed.
Lemma vrep_swap {X E} n (v : arr X) f a b : vrep n v f -> 0 <= a < n -> 0 <= b < n ->
  exists v', @swap E X v a b = Ok v' /\ vrep n v' (fun c => f (tr a b c)).
Proof.
  intros V Ha Hb. unfold swap. rewrite (vrep_rd n v f a), (vrep_rd n v f b) by auto. cbn [bind].
  destruct (@vrep_wr X E n v f a (f b) V Ha) as (v1 & E1 & V1). rewrite E1. cbn [bind].
  destruct (@vrep_wr X E n v1 _ b (f a) V1 Hb) as (v2 & E2 & V2). exists v2. split; [exact E2|].
  eapply vrep_ext; [exact V2|]. intros c Hc. cbn beta. unfold tr.
  destruct (Z.eqb_spec c b); destruct (Z.eqb_spec c a); subst; auto.
Qed.

Section GAUSS.
Variable A : arith.
Variable tiny : carrier A.
Notation num := (carrier A).
Variable n : Z.
Hypothesis Hn : 2 <= n.

(** matrix, column numbers, right hand side *)
Definition srep (s : state A) (f : Z -> Z -> num) (x : Z -> Z) (t : Z -> num) : Prop :=
  mrep n (fst (fst s)) f /\ mrep n (snd (fst s)) (fun _ c => x c) /\ vrep n (snd s) t.

Lemma swap_columns_ok i c s f x t : srep s f x t -> 0 <= i < n -> 0 <= c < n ->
  exists s', swap_columns A n i c s = Ok s' /\
    srep s' (fun r k => f r (tr i c k)) (fun k => x (tr i c k)) t.
Proof.
  intros (M & X & T) Hi Hc. unfold swap_columns. destruct (Z.eqb_spec c i) as [->|Hne].
  - exists s. split; [reflexivity|].
    assert (N : forall k, tr i i k = k) by (intros k; unfold tr; destruct (Z.eqb_spec k i); auto).
    split; [|split]; [eapply mrep_ext; [exact M|]|eapply mrep_ext; [exact X|]|exact T]; intros; cbn beta; rewrite N; reflexivity.
  - destruct (for_inv (fun k s' => mrep n (fst (fst s')) (fun r j => f r (if r <? k then tr i c j else j)) /\
        mrep n (snd (fst s')) (fun r j => x (if r <? k then tr i c j else j)) /\ vrep n (snd s') t)
      (fun k s => let '(m, x, t) := s in
         do m <- swap m (i + k * n) (c + k * n);
         do x <- swap x (i + k * n) (c + k * n);
         Ok (m, x, t)) 0 n s) as (s' & E & M' & X' & T'); [lia| | |].
    + split; [|split; [|exact T]]; [eapply mrep_ext; [exact M|]|eapply mrep_ext; [exact X|]]; intros r j Hr Hj; cbn beta;
        (destruct (Z.ltb_spec r 0); [lia|reflexivity]).
    + intros k [[m1 x1] t1] Hk (M1 & X1 & T1). cbn [fst snd] in M1, X1, T1.
      destruct (@mrep_swap _ unit n m1 _ k i k c M1) as (m2 & E2 & M2); [lia..|]. rewrite E2. cbn [bind].
      destruct (@mrep_swap _ unit n x1 _ k i k c X1) as (x2 & E3 & X2); [lia..|]. rewrite E3. cbn [bind].
      eexists. split; [reflexivity|]. cbn [fst snd]. split; [|split; [|exact T1]];
        [eapply mrep_ext; [exact M2|]|eapply mrep_ext; [exact X2|]]; intros r j Hr Hj; cbn beta; unfold tr;
        destruct (Z.eqb_spec r k); destruct (Z.ltb_spec k k); try lia; destruct (Z.ltb_spec r k); try lia;
        destruct (Z.ltb_spec r (k + 1)); try lia; cbn [andb]; try reflexivity; subst;
        destruct (Z.eqb_spec j c); destruct (Z.eqb_spec j i); subst; auto; congruence.
    + exists s'. split; [exact E|]. split; [|split; [|exact T']];
        [eapply mrep_ext; [exact M'|]|eapply mrep_ext; [exact X'|]]; intros r j Hr Hj; cbn beta;
        (destruct (Z.ltb_spec r n); [reflexivity|lia]).
Qed.

Lemma swap_rows_ok i c s f x t : srep s f x t -> 0 <= i < n -> 0 <= c < n ->
  exists s', swap_rows A n i c s = Ok s' /\
    srep s' (fun r k => f (tr i c r) k) x (fun r => t (tr i c r)).
Proof.
  intros (M & X & T) Hi Hc. unfold swap_rows. destruct (Z.eqb_spec c i) as [->|Hne].
  - exists s. split; [reflexivity|].
    assert (N : forall k, tr i i k = k) by (intros k; unfold tr; destruct (Z.eqb_spec k i); auto).
    split; [|split]; [eapply mrep_ext; [exact M|]|exact X|eapply vrep_ext; [exact T|]]; intros; cbn beta; rewrite N; reflexivity.
  - destruct (for_inv (fun k s' => mrep n (fst (fst s')) (fun r j => f (if j <? k then tr i c r else r) j) /\
        mrep n (snd (fst s')) (fun _ j => x j) /\ vrep n (snd s') t)
      (fun j s => let '(m, x, t) := s in
         do m <- swap m (j + i * n) (j + c * n);
         do x <- swap x (j + i * n) (j + c * n);
         Ok (m, x, t)) 0 n s) as (s' & E & M' & X' & T'); [lia| | |].
    + split; [|split; [exact X|exact T]]. eapply mrep_ext; [exact M|]. intros r j Hr Hj. cbn beta.
      destruct (Z.ltb_spec j 0); [lia|reflexivity].
    + intros k [[m1 x1] t1] Hk (M1 & X1 & T1). cbn [fst snd] in M1, X1, T1.
      destruct (@mrep_swap _ unit n m1 _ i k c k M1) as (m2 & E2 & M2); [lia..|]. rewrite E2. cbn [bind].
      destruct (@mrep_swap _ unit n x1 _ i k c k X1) as (x2 & E3 & X2); [lia..|]. rewrite E3. cbn [bind].
      eexists. split; [reflexivity|]. cbn [fst snd]. split; [|split; [|exact T1]].
      * eapply mrep_ext; [exact M2|]. intros r j Hr Hj. cbn beta. unfold tr.
        destruct (Z.eqb_spec j k); destruct (Z.ltb_spec k k); try lia; destruct (Z.ltb_spec j k); try lia;
        destruct (Z.ltb_spec j (k + 1)); try lia; rewrite ?andb_false_r, ?andb_true_r; try reflexivity; subst;
        destruct (Z.eqb_spec r c); destruct (Z.eqb_spec r i); subst; auto; congruence.
      * eapply mrep_ext; [exact X2|]. intros r j Hr Hj. cbn beta.
        destruct (Z.eqb_spec j k); [subst|rewrite !andb_false_r; reflexivity]. destruct (r =? c), (r =? i); reflexivity.
    + rewrite E. cbn [bind]. destruct s' as [[m1 x1] t1]. cbn [fst snd] in M', X', T'.
      destruct (@vrep_swap _ unit n t1 t i c T' Hi Hc) as (t2 & E2 & T2). rewrite E2. cbn [bind].
      eexists. split; [reflexivity|]. cbn [fst snd]. split; [|split; [exact X'|exact T2]].
      eapply mrep_ext; [exact M'|]. intros r j Hr Hj. cbn beta. destruct (Z.ltb_spec j n); [reflexivity|lia].
Qed.

(** row operations of one step *)
Definition elim_f (i : Z) (f : Z -> Z -> num) : Z -> Z -> num :=
  fun r c => if (i <? r) && (i <=? c) then asub A (f r c) (amul A (f i c) (adiv A (f r i) (f i i))) else f r c.
Definition elim_t (i : Z) (f : Z -> Z -> num) (t : Z -> num) : Z -> num :=
  fun r => if i <? r then asub A (t r) (amul A (t i) (adiv A (f r i) (f i i))) else t r.

Lemma eliminate_ok i s f x t : srep s f x t -> 0 <= i < n ->
  exists s', eliminate A n i s = Ok s' /\ srep s' (elim_f i f) x (elim_t i f t).
Proof.
  intros (M & X & T) Hi. unfold eliminate.
  match goal with |- context [for_ (i + 1) n ?g s] =>
    destruct (for_inv (fun j s' => mrep n (fst (fst s')) (fun r c => if r <? j then elim_f i f r c else f r c) /\
      mrep n (snd (fst s')) (fun _ c => x c) /\ vrep n (snd s') (fun r => if r <? j then elim_t i f t r else t r)) g (i + 1) n s)
      as (s' & E & M' & X' & T') end; [lia| | |].
  - split; [|split; [exact X|]]; [eapply mrep_ext; [exact M|]|eapply vrep_ext; [exact T|]]; intros; cbn beta; unfold elim_f, elim_t.
    + destruct (Z.ltb_spec r (i + 1)); [|reflexivity]. destruct (Z.ltb_spec i r); [lia|reflexivity].
    + destruct (Z.ltb_spec c (i + 1)); [|reflexivity]. destruct (Z.ltb_spec i c); [lia|reflexivity].
  - intros j [[m1 x1] t1] Hj (M1 & X1 & T1). cbn [fst snd] in M1, X1, T1.
    rewrite (mrep_rd n m1 _ j i M1), (mrep_rd n m1 _ i i M1) by lia. cbn [bind].
    destruct (Z.ltb_spec j j); [lia|]. destruct (Z.ltb_spec i j); [|lia].
    assert (Eii : forall c, elim_f i f i c = f i c) by (intros c; unfold elim_f; destruct (Z.ltb_spec i i); [lia|reflexivity]).
    rewrite Eii. set (q := adiv A (f j i) (f i i)).
    match goal with |- context [for_ i n ?g m1] =>
      destruct (for_inv (fun k m => mrep n m (fun r c =>
         if (r =? j) && (i <=? c) && (c <? k) then asub A (f r c) (amul A (f i c) q)
         else if r <? j then elim_f i f r c else f r c)) g i n m1) as (m2 & E2 & M2) end; [lia| | |].
    + eapply mrep_ext; [exact M1|]. intros r c Hr Hc. cbn beta.
      replace ((r =? j) && (i <=? c) && (c <? i)) with false by lia. reflexivity.
    + intros k m Hk Mk. rewrite (mrep_rd n m _ j k Mk), (mrep_rd n m _ i k Mk) by lia. cbn [bind].
      replace ((j =? j) && (i <=? k) && (k <? k)) with false by lia.
      replace ((i =? j) && (i <=? k) && (k <? k)) with false by lia.
      destruct (Z.ltb_spec j j); [lia|]. destruct (Z.ltb_spec i j); [|lia]. rewrite Eii.
      destruct (@mrep_wr _ unit n m _ j k (asub A (f j k) (amul A (f i k) q)) Mk) as (m' & E' & M'); [lia..|].
      exists m'. split; [exact E'|]. eapply mrep_ext; [exact M'|]. intros r c Hr Hc. cbn beta.
      destruct (Z.eqb_spec r j); cbn [andb]; [subst r|reflexivity]. destruct (Z.eqb_spec c k).
      * subst c. replace ((i <=? k) && (k <? k + 1)) with true by lia. reflexivity.
      * replace ((i <=? c) && (c <? k + 1)) with ((i <=? c) && (c <? k)) by lia. reflexivity.
    + rewrite E2. cbn [bind]. rewrite (vrep_rd n t1 _ j T1), (vrep_rd n t1 _ i T1) by lia. cbn [bind].
      destruct (Z.ltb_spec j j); [lia|]. destruct (Z.ltb_spec i j); [|lia].
      assert (Et : elim_t i f t i = t i) by (unfold elim_t; destruct (Z.ltb_spec i i); [lia|reflexivity]). rewrite Et.
      destruct (@vrep_wr _ unit n t1 _ j (asub A (t j) (amul A (t i) q)) T1) as (t2 & E3 & T2); [lia|]. rewrite E3. cbn [bind].
      eexists. split; [reflexivity|]. cbn [fst snd]. split; [|split; [exact X1|]].
      * eapply mrep_ext; [exact M2|]. intros r c Hr Hc. cbn beta.
        destruct (Z.eqb_spec r j); cbn [andb].
        -- subst r. destruct (Z.ltb_spec j j); [lia|]. destruct (Z.ltb_spec j (j + 1)); [|lia].
           destruct (Z.ltb_spec c n); [|lia]. rewrite andb_true_r. unfold elim_f at 1. destruct (Z.ltb_spec i j); [|lia]. reflexivity.
        -- replace (r <? j + 1) with (r <? j) by lia. reflexivity.
      * eapply vrep_ext; [exact T2|]. intros r Hr. cbn beta. destruct (Z.eqb_spec r j).
        -- subst r. destruct (Z.ltb_spec j (j + 1)); [|lia]. unfold elim_t. destruct (Z.ltb_spec i j); [|lia]. reflexivity.
        -- replace (r <? j + 1) with (r <? j) by lia. reflexivity.
  - exists s'. split; [exact E|]. split; [|split; [exact X'|]];
      [eapply mrep_ext; [exact M'|]|eapply vrep_ext; [exact T'|]]; intros; cbn beta.
    + destruct (Z.ltb_spec r n); [reflexivity|lia].
    + destruct (Z.ltb_spec c n); [reflexivity|lia].
Qed.

(** The pivot is the first largest entry; stated for any order in which that makes sense. *)
Definition sane : Prop := (forall v, alt A v v = false) /\
  (forall a v w, alt A a v = true -> alt A a w = false -> alt A v w = false).
Lemma find_pivot_ok i m f : mrep n m f -> 0 <= i < n ->
  exists r c a, find_pivot A n m i = Ok (r, c, a) /\ i <= r < n /\ i <= c < n /\
    (a = aZ A 0 \/ a = aabs A (f r c)) /\
    (sane -> forall r c, i <= r < n -> i <= c < n -> alt A a (aabs A (f r c)) = false).
Proof.
  intros M Hi. unfold find_pivot.
  set (P := fun (seen : Z -> Z -> Prop) (s : Z * Z * num) =>
    i <= fst (fst s) < n /\ i <= snd (fst s) < n /\
    (snd s = aZ A 0 \/ snd s = aabs A (f (fst (fst s)) (snd (fst s)))) /\
    (sane -> forall r c, seen r c -> alt A (snd s) (aabs A (f r c)) = false)).
  match goal with |- context [for_ i n ?g ?s] =>
    destruct (for_inv (fun j => P (fun r c => i <= r < n /\ i <= c < j)) g i n s) as ([[r c] a] & E & P1 & P2 & P3 & P4) end; [lia| | |].
  - split; [|split; [|split]]; cbn [fst snd]; [lia|lia|auto|]. intros _ r c. lia.
  - intros j s Hj HP.
    match goal with |- context [for_ i n ?g ?s] =>
      destruct (for_inv (fun k => P (fun r c => i <= r < n /\ i <= c < j \/ i <= r < k /\ c = j)) g i n s) as (s' & E & HP') end; [lia| | |].
    + destruct HP as (P1 & P2 & P3 & P4). split; [|split; [|split]]; auto. intros S r c [H|H]; [auto|lia].
    + intros k s1 Hk HP1. rewrite (mrep_rd n m f k j M) by lia. cbn [bind].
      destruct (alt A (snd s1) (aabs A (f k j))) eqn:El; eexists; (split; [reflexivity|]);
        destruct HP1 as (P1 & P2 & P3 & P4); (split; [|split; [|split]]); cbn [fst snd]; auto; try lia.
      * intros S r c H. assert (D : (i <= r < n /\ i <= c < j \/ i <= r < k /\ c = j) \/ (r = k /\ c = j)) by lia.
        destruct D as [D|[-> ->]]; [|apply S]. destruct S as [S1 S2]. apply (S2 _ _ _ El). apply P4; [split; auto|exact D].
      * intros S r c H. assert (D : (i <= r < n /\ i <= c < j \/ i <= r < k /\ c = j) \/ (r = k /\ c = j)) by lia.
        destruct D as [D|[-> ->]]; [|exact El]. apply P4; auto.
    + exists s'. split; [exact E|]. destruct HP' as (P1 & P2 & P3 & P4). split; [|split; [|split]]; auto.
      intros S r c H. apply P4; [exact S|]. lia.
  - exists r, c, a. cbn [fst snd] in *. split; [exact E|]. split; [lia|]. split; [lia|]. split; [exact P3|].
    intros S r' c' H1 H2. apply P4; auto.
Qed.

(** One step of the direct method, as a function of the matrix. *)
Definition step_f (i r c : Z) (f : Z -> Z -> num) : Z -> Z -> num := fun r' c' => f (tr i r r') (tr i c c').

Lemma direct_rule (P : Z -> (Z -> Z -> num) -> (Z -> Z) -> (Z -> num) -> Prop) (Q : Prop) s f x t :
  srep s f x t -> P 0 f x t ->
  (forall i f x t r c a, 0 <= i < n -> P i f x t -> i <= r < n -> i <= c < n ->
     (a = aZ A 0 \/ a = aabs A (f r c)) ->
     (sane -> forall r c, i <= r < n -> i <= c < n -> alt A a (aabs A (f r c)) = false) ->
     if alt A a tiny then Q
     else P (i + 1) (elim_f i (step_f i r c f)) (fun k => x (tr i c k))
            (elim_t i (step_f i r c f) (fun k => t (tr i r k)))) ->
  (exists s' f' x' t', direct_method A tiny n s = Ok s' /\ srep s' f' x' t' /\ P n f' x' t') \/
  (direct_method A tiny n s = Throw tt /\ Q).
Proof.
  intros S0 H0 Hs. unfold direct_method.
  match goal with |- context [for_ 0 n ?g s] =>
    destruct (for_rule (fun i s => exists f x t, srep s f x t /\ P i f x t) Q g 0 n s) as [(s' & E & f' & x' & t' & H)|H] end; [lia| | | |].
  - eauto.
  - clear s f x t S0 H0. intros i s Hi (f & x & t & S1 & HP). pose proof S1 as (M & _ & _).
    destruct (find_pivot_ok i _ f M Hi) as (r & c & a & E & Hr & Hc & Ha & Hmax). rewrite E. cbn [bind].
    specialize (Hs i f x t r c a Hi HP Hr Hc Ha Hmax). destruct (alt A a tiny); [right; auto|]. left.
    destruct (swap_columns_ok i c s f x t S1) as (s1 & E1 & S2); [lia|lia|]. rewrite E1. cbn [bind].
    destruct (swap_rows_ok i r s1 _ _ _ S2) as (s2 & E2 & S3); [lia|lia|]. rewrite E2. cbn [bind].
    destruct (eliminate_ok i s2 _ _ _ S3) as (s3 & E3 & S4); [lia|]. exists s3. split; [exact E3|].
    eexists _, _, _. split; [exact S4|exact Hs].
  - left. exists s', f', x', t'. tauto.
  - right. exact H.
Qed.

(** Back substitution. *)
Lemma inverse_method_ok m f t tf : mrep n m f -> vrep n t tf -> exists u, inverse_method A tiny n m t = Ok u /\ alen u = n.
Proof.
  intros M T. unfold inverse_method.
  match goal with |- context [for_ 0 n ?g ?s] => destruct (for_inv (fun _ u => alen u = n) g 0 n s) as (u & E & H) end; eauto; [lia|].
  intros l u Hl Hu. rewrite (mrep_rd n m f _ _ M) by lia. cbn [bind].
  destruct (alt A _ tiny).
  - rewrite wr_ok by lia. eexists. split; [reflexivity|exact Hu].
  - match goal with |- context [for_ ?a n ?g ?s] => destruct (for_inv (fun _ _ => True) g a n s) as (x & E & _) end; [lia|exact I| |].
    + intros k x Hk _. rewrite rd_ok by lia. rewrite (mrep_rd n m f _ _ M) by lia. cbn [bind]. eauto.
    + rewrite E. cbn [bind]. rewrite (vrep_rd n t tf _ T) by lia. cbn [bind]. rewrite wr_ok by lia. eexists. split; [reflexivity|exact Hu].
Qed.

(** The result is written through the column numbers. *)
Lemma results_ok x xf u uf roots : mrep n x (fun _ c => xf c) -> vrep n u uf -> n <= alen roots ->
  (forall c, 0 <= c < n -> 0 <= xf c < n) ->
  (forall c d, 0 <= c < n -> 0 <= d < n -> xf c = xf d -> c = d) ->
  exists v, for_ 0 n (fun i roots => do k <- rd x (i + i * n); do v <- rd u i; wr roots k v) roots = Ok v /\
    alen v = alen roots /\ (forall c, 0 <= c < n -> aget v (xf c) = uf c) /\ (forall k, ~ 0 <= k < n -> aget v k = @aget num roots k).
Proof.
  intros X U Hlen Hr Hinj.
  match goal with |- context [for_ 0 n ?g ?s] =>
    destruct (for_inv (fun i v => alen v = alen roots /\ (forall c, 0 <= c < i -> aget v (xf c) = uf c) /\
      (forall k, ~ 0 <= k < n -> aget v k = aget roots k)) g 0 n s) as (v & E & H) end; [lia| | |eauto].
  - split; [reflexivity|]. split; [lia|auto].
  - intros i v Hi (L & H1 & H2). rewrite (mrep_rd n x _ i i X), (vrep_rd n u uf i U) by lia. cbn [bind].
    pose proof (Hr i Hi). rewrite wr_ok by lia. eexists. split; [reflexivity|]. split; [exact L|]. split.
    + intros c Hc. rewrite aget_aset. destruct (Z.eqb_spec (xf c) (xf i)) as [e|e].
      * apply Hinj in e; [subst; reflexivity|lia|lia].
      * apply H1. assert (c <> i) by congruence. lia.
    + intros k Hk. rewrite aget_aset. destruct (Z.eqb_spec k (xf i)); [lia|auto].
Qed.
Lemma indices_ok : exists x, for_ 0 n (fun i => for_ 0 n (fun j x => wr x (i + j * n) i)) (mkArr (n * n) (fun _ => 0)) = Ok x /\
  mrep n x (fun _ c => c).
Proof.
  match goal with |- context [for_ 0 n ?g ?s] =>
    destruct (for_inv (fun i x => mrep n x (fun _ c => if c <? i then c else 0)) g 0 n s) as (v & E & H) end; [lia| | |].
  - split; [reflexivity|]. intros r c Hr Hc. cbn [aget]. destruct (c <? 0) eqn:e; [lia|reflexivity].
  - intros i x Hi H.
    match goal with |- context [for_ 0 n ?g ?s] =>
      destruct (for_inv (fun j x => mrep n x (fun r c => if (c <? i) || (c =? i) && (r <? j) then c else 0)) g 0 n s) as (v & E & H') end; [lia| | |].
    + eapply mrep_ext; [exact H|]. intros r c Hr Hc. cbn beta. replace ((c =? i) && (r <? 0)) with false by lia. rewrite orb_false_r. reflexivity.
    + intros j y Hj Hy. destruct (@mrep_wr _ unit n y _ j i i Hy) as (z & E & Hz); [lia..|]. exists z. split; [exact E|].
      eapply mrep_ext; [exact Hz|]. intros r c Hr Hc. cbn beta.
      destruct (Z.eqb_spec c i); destruct (Z.eqb_spec r j); cbn [andb]; subst.
      * replace ((i <? i) || (j <? j + 1)) with true by lia. reflexivity.
      * replace (r <? j + 1) with (r <? j) by lia. reflexivity.
      * reflexivity.
      * reflexivity.
    + exists v. split; [exact E|]. eapply mrep_ext; [exact H'|]. intros r c Hr Hc. cbn beta.
      replace ((c <? i) || (c =? i) && (r <? n)) with (c <? i + 1) by lia. reflexivity.
  - exists v. split; [exact E|]. eapply mrep_ext; [exact H|]. intros r c Hr Hc. cbn beta. replace (c <? n) with true by lia. reflexivity.
Qed.
End GAUSS.
