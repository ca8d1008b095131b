(** The linear system solver in exact arithmetic. *)
From Coq Require Import ZArith List Bool Lia Reals Lra.
From Verif Require Import Base BaseProofs Arith Math HaarProofs GaussProofs.
Import ListNotations.
Open Scope Z_scope.

(** g 0 + ... + g (n - 1) *)
Fixpoint rsum (n : nat) (g : Z -> R) : R :=
  match n with O => 0%R | S k => (rsum k g + g (Z.of_nat k))%R end.
(** component r of the product of a matrix and a vector *)
Definition prod (n : Z) (f : Z -> Z -> R) (y : Z -> R) (r : Z) : R := rsum (Z.to_nat n) (fun c => f r c * y c)%R.

Lemma rsum_ext n g h : (forall c, 0 <= c < Z.of_nat n -> g c = h c) -> rsum n g = rsum n h.
Proof.
  induction n as [|n IH]; intros H; [reflexivity|]. cbn [rsum].
  rewrite IH, (H (Z.of_nat n)); [reflexivity|lia|]. intros. apply H. lia.
Qed.
Lemma rsum_one n g h k : 0 <= k < Z.of_nat n -> (forall c, 0 <= c < Z.of_nat n -> c <> k -> h c = g c) ->
  rsum n h = (rsum n g + (h k - g k))%R.
Proof.
  induction n as [|n IH]; intros Hk H; [lia|]. cbn [rsum]. destruct (Z.eq_dec k (Z.of_nat n)) as [->|Hne].
  - rewrite (rsum_ext n h g) by (intros; apply H; lia). lra.
  - rewrite IH by (try lia; intros; apply H; lia). rewrite (H (Z.of_nat n)) by lia. lra.
Qed.
Lemma rsum_lin n g h q : rsum n (fun c => (g c - h c * q)%R) = (rsum n g - rsum n h * q)%R.
Proof. induction n as [|n IH]; cbn [rsum]; [lra|]. rewrite IH. lra. Qed.
Lemma rsum_tr n g a b : 0 <= a < Z.of_nat n -> 0 <= b < Z.of_nat n -> rsum n (fun c => g (tr a b c)) = rsum n g.
Proof.
  intros Ha Hb. destruct (Z.eq_dec a b) as [->|Hab].
  - apply rsum_ext. intros c _. unfold tr. destruct (Z.eqb_spec c b); subst; reflexivity.
  - rewrite (rsum_one n (fun c => if c =? b then g a else g c) (fun c => g (tr a b c)) a Ha).
    + rewrite (rsum_one n g (fun c => if c =? b then g a else g c) b Hb).
      * unfold tr. rewrite !Z.eqb_refl. destruct (Z.eqb_spec a b); [contradiction|]. lra.
      * intros c _ Hc. destruct (Z.eqb_spec c b); [contradiction|reflexivity].
    + intros c _ Hc. unfold tr. destruct (Z.eqb_spec c a); [contradiction|]. destruct (Z.eqb_spec c b); reflexivity.
Qed.
Lemma rsum_zero n : rsum n (fun _ => 0%R) = 0%R.
Proof. induction n as [|n IH]; cbn [rsum]; [reflexivity|]. rewrite IH. lra. Qed.

Lemma Rltb_true x y : Rltb x y = true -> (x < y)%R.
Proof. unfold Rltb. destruct (Rlt_dec x y); [auto|discriminate]. Qed.
Lemma Rltb_false x y : Rltb x y = false -> (y <= x)%R.
Proof. unfold Rltb. destruct (Rlt_dec x y); [discriminate|lra]. Qed.
Lemma sane_exact : sane exact.
Proof.
  split; cbn [alt exact].
  - intros v. destruct (Rltb v v) eqn:E; [apply Rltb_true in E; lra|reflexivity].
  - intros a v w H1 H2. apply Rltb_true in H1. apply Rltb_false in H2.
    destruct (Rltb v w) eqn:E; [apply Rltb_true in E; lra|reflexivity].
Qed.

Section EXACT.
Variable tiny : R.
Hypothesis Htiny : (0 < tiny)%R.
Variable n : Z.
Hypothesis Hn : 2 <= n.
Notation N := (Z.to_nat n).

(** Back substitution for arbitrary right hand sides and free part. *)
Lemma triangular (f : Z -> Z -> R) (t : Z -> R) (z0 : Z -> R) k :
  0 <= k <= n ->
  (forall r, 0 <= r < k -> f r r <> 0%R) -> (forall r c, 0 <= c < r -> r < k -> f r c = 0%R) ->
  exists z, (forall c, k <= c -> z c = z0 c) /\ (forall r, 0 <= r < k -> prod n f z r = t r).
Proof.
  intros Hk Hd Ht.
  assert (K : forall m, (m <= Z.to_nat k)%nat -> exists z, (forall c, k <= c -> z c = z0 c) /\
    (forall r, k - Z.of_nat m <= r < k -> prod n f z r = t r)).
  { induction m as [|m IH]; intros Hm.
    - exists z0. split; [auto|lia].
    - destruct IH as (z & H1 & H2); [lia|]. set (i := k - Z.of_nat m - 1).
      set (v := ((t i - (prod n f z i - f i i * z i)) / f i i)%R).
      exists (fun c => if c =? i then v else z c). split.
      + intros c Hc. destruct (Z.eqb_spec c i); [lia|auto].
      + intros r Hr. unfold prod.
        rewrite (rsum_one N (fun c => f r c * z c)%R _ i); [|lia|intros c _ Hc; destruct (Z.eqb_spec c i); [contradiction|reflexivity]].
        cbv beta. rewrite Z.eqb_refl. destruct (Z.eq_dec r i) as [->|Hne].
        * change (rsum N (fun c => f i c * z c)%R) with (prod n f z i). subst v. field. apply Hd. lia.
        * rewrite (Ht r i) by lia. change (rsum N (fun c => f r c * z c)%R) with (prod n f z r). rewrite H2 by lia. lra. }
  destruct (K (Z.to_nat k)) as (z & H1 & H2); [lia|]. exists z. split; [exact H1|]. intros. apply H2. lia.
Qed.
Lemma triangular_unique (f : Z -> Z -> R) (z w : Z -> R) :
  (forall r, 0 <= r < n -> f r r <> 0%R) -> (forall r c, 0 <= c < r -> r < n -> f r c = 0%R) ->
  (forall r, 0 <= r < n -> prod n f z r = prod n f w r) -> forall c, 0 <= c < n -> z c = w c.
Proof.
  intros Hd Ht He.
  assert (K : forall m, (m <= N)%nat -> forall c, n - Z.of_nat m <= c < n -> z c = w c).
  { induction m as [|m IH]; intros Hm; [lia|]. intros c Hc.
    destruct (Z.eq_dec c (n - Z.of_nat m - 1)) as [->|]; [|apply IH; lia]. set (i := n - Z.of_nat m - 1) in *.
    assert (Hi : 0 <= i < n) by lia. pose proof (He i Hi) as E. unfold prod in E.
    rewrite (rsum_one N (fun c => f i c * w c)%R (fun c => f i c * z c)%R i) in E; [|lia|].
    - assert (f i i * (z i - w i) = 0)%R as [F|F]%Rmult_integral by lra; [destruct (Hd i Hi F)|lra].
    - intros c Hcn Hci. destruct (Z_lt_dec c i) as [l|g]; [rewrite Ht by lia; lra|]. rewrite IH by lia. reflexivity. }
  intros c Hc. apply (K N); lia.
Qed.

(** The invariant of the direct method. *)
Variable F0 : Z -> Z -> R.
Variable T0 : Z -> R.
Definition solves (y : Z -> R) : Prop := forall r, 0 <= r < n -> prod n F0 y r = T0 r.
Definition upper (i : Z) (f : Z -> Z -> R) : Prop :=
  (forall r c, 0 <= c < r -> c < i -> r < n -> f r c = 0%R) /\ (forall r, 0 <= r < i -> (tiny <= Rabs (f r r))%R).
Definition inv (i : Z) (f : Z -> Z -> R) (x : Z -> Z) (t : Z -> R) : Prop :=
  (exists rho, forall c, 0 <= c < n -> 0 <= x c < n /\ 0 <= rho c < n /\ x (rho c) = c /\ rho (x c) = c) /\
  (forall y, (forall r, 0 <= r < n -> prod n f (fun c => y (x c)) r = t r) <-> solves y) /\
  (exists sigma, forall q, 0 <= q < n -> 0 <= sigma q < n /\
     forall y, (forall s, 0 <= s < i -> prod n f (fun c => y (x c)) s = 0%R) ->
       prod n F0 y q = prod n f (fun c => y (x c)) (sigma q)) /\
  upper i f.

Lemma inv_start : inv 0 F0 (fun c => c) T0.
Proof.
  split; [|split; [|split]].
  - exists (fun c => c). auto.
  - intros y. reflexivity.
  - exists (fun q => q). intros q Hq. split; [exact Hq|]. intros y _. reflexivity.
  - split; lia.
Qed.

(** exchange of columns and rows *)
Lemma prod_step i r c (f : Z -> Z -> R) (x : Z -> Z) (y : Z -> R) k : 0 <= i < n -> 0 <= c < n ->
  prod n (step_f exact i r c f) (fun d => y (x (tr i c d))) k = prod n f (fun d => y (x d)) (tr i r k).
Proof.
  intros Hi Hc. unfold prod, step_f. rewrite <- (rsum_tr N (fun d => f (tr i r k) d * y (x d))%R i c); [reflexivity|lia|lia].
Qed.
Lemma upper_step i r c f : 0 <= i < n -> i <= r < n -> i <= c < n -> upper i f -> upper i (step_f exact i r c f).
Proof.
  intros Hi Hr Hc [U D]. unfold step_f. split.
  - intros r' c' H1 H2 H3. assert (E : tr i c c' = c').
    { unfold tr. destruct (Z.eqb_spec c' i); [lia|]. destruct (Z.eqb_spec c' c); [lia|reflexivity]. }
    rewrite E. apply U; try lia; unfold tr; destruct (Z.eqb_spec r' i); destruct (Z.eqb_spec r' r); lia.
  - intros k Hk. assert (E : forall u, i <= u -> tr i u k = k).
    { intros u Hu. unfold tr. destruct (Z.eqb_spec k i); [lia|]. destruct (Z.eqb_spec k u); [lia|reflexivity]. }
    rewrite !E by lia. apply D. lia.
Qed.
(** the row operations *)
Lemma prod_elim i (f : Z -> Z -> R) z k : 0 <= i < n -> 0 <= k < n -> upper i f -> i < k ->
  prod n (elim_f exact i f) z k = (prod n f z k - prod n f z i * (f k i / f i i))%R.
Proof.
  intros Hi Hk [U _] H. unfold prod. rewrite <- rsum_lin. apply rsum_ext. intros c Hc. unfold elim_f.
  destruct (Z.ltb_spec i k); [|lia]. cbn [andb asub amul adiv exact]. destruct (Z.leb_spec i c); [ring|].
  rewrite (U k c), (U i c) by lia. ring.
Qed.
Lemma prod_elim_same i (f : Z -> Z -> R) z k : k <= i -> prod n (elim_f exact i f) z k = prod n f z k.
Proof.
  intros H. unfold prod. apply rsum_ext. intros c Hc. unfold elim_f. destruct (Z.ltb_spec i k); [lia|]. reflexivity.
Qed.

Lemma inv_step i f x t r c : 0 <= i < n -> inv i f x t -> i <= r < n -> i <= c < n -> (tiny <= Rabs (f r c))%R ->
  inv (i + 1) (elim_f exact i (step_f exact i r c f)) (fun k => x (tr i c k))
      (elim_t exact i (step_f exact i r c f) (fun k => t (tr i r k))).
Proof.
  intros Hi ((rho & Hx) & Hs & (sigma & Hg) & Hu) Hr Hc Hp.
  assert (Ri : 0 <= i < n) by lia. assert (Rr : 0 <= r < n) by lia. assert (Rc : 0 <= c < n) by lia.
  pose proof (upper_step i r c f Hi Hr Hc Hu) as Hu'. set (g := step_f exact i r c f) in *.
  assert (Gii : g i i = f r c) by (unfold g, step_f, tr; rewrite !Z.eqb_refl; reflexivity).
  assert (Gne : g i i <> 0%R) by (rewrite Gii; intros e; rewrite e, Rabs_R0 in Hp; lra).
  assert (PG : forall y k, prod n g (fun d => y (x (tr i c d))) k = prod n f (fun d => y (x d)) (tr i r k)).
  { intros y k. apply prod_step; auto. }
  split; [|split; [|split]].
  - exists (fun k => tr i c (rho k)). intros k Hk. pose proof (tr_range i c n k Ri Rc Hk) as Hk'.
    destruct (Hx k Hk) as (_ & A1 & A2 & _). destruct (Hx _ Hk') as (B1 & _ & _ & B2).
    split; [exact B1|]. split; [apply tr_range; auto|]. rewrite tr_tr. split; [exact A2|]. rewrite B2. apply tr_tr.
  - intros y. rewrite <- Hs. split.
    + intros H k Hk.
      assert (K : forall k, 0 <= k < n -> prod n g (fun d => y (x (tr i c d))) k = t (tr i r k)).
      { intros l Hl. pose proof (H l Hl) as E. pose proof (H i Hi) as E0.
        rewrite prod_elim_same in E0 by lia. unfold elim_t in E0, E. destruct (Z.ltb_spec i i) in E0; [lia|].
        destruct (Z.ltb_spec i l).
        - rewrite prod_elim in E by auto. cbn [asub amul adiv exact] in E. rewrite E0 in E. lra.
        - rewrite prod_elim_same in E by lia. exact E. }
      specialize (K (tr i r k) (tr_range i r n k Ri Rr Hk)). rewrite PG, tr_tr in K. exact K.
    + intros H k Hk.
      assert (K : forall k, 0 <= k < n -> prod n g (fun d => y (x (tr i c d))) k = t (tr i r k)).
      { intros l Hl. rewrite PG. apply H, tr_range; auto. }
      unfold elim_t. destruct (Z.ltb_spec i k).
      * rewrite prod_elim by auto. rewrite !K by auto. reflexivity.
      * rewrite prod_elim_same by lia. apply K. exact Hk.
  - exists (fun q => tr i r (sigma q)). intros q Hq. destruct (Hg q Hq) as (S1 & S2). split; [apply tr_range; auto|].
    intros y H.
    assert (Z0 : forall s, 0 <= s < i + 1 -> prod n g (fun d => y (x (tr i c d))) s = 0%R).
    { intros s Hs0. specialize (H s Hs0). rewrite prod_elim_same in H by lia. exact H. }
    rewrite S2.
    + set (k := tr i r (sigma q)). assert (Rk : 0 <= k < n) by (apply tr_range; auto).
      destruct (Z_lt_dec i k) as [l|l].
      * rewrite prod_elim by auto. rewrite (Z0 i) by lia. rewrite PG. unfold k. rewrite tr_tr. ring.
      * rewrite prod_elim_same by lia. rewrite PG. unfold k. rewrite tr_tr. reflexivity.
    + intros s Hs0. specialize (Z0 s ltac:(lia)). rewrite PG in Z0. unfold tr in Z0.
      destruct (Z.eqb_spec s i); [lia|]. destruct (Z.eqb_spec s r); [lia|]. exact Z0.
  - destruct Hu' as [U D]. unfold elim_f. split.
    + intros k d H1 H2 H3. destruct (Z.eq_dec d i) as [->|Hd].
      * destruct (Z.ltb_spec i k); [|lia]. destruct (Z.leb_spec i i); [|lia]. cbn [andb asub amul adiv exact]. 
        change (@eq (carrier exact)) with (@eq R). field. exact Gne.
      * destruct (Z.leb_spec i d); [lia|]. rewrite andb_false_r. apply U; lia.
    + intros k Hk. destruct (Z.ltb_spec i k); [lia|]. cbn [andb]. destruct (Z.eq_dec k i) as [->|]; [rewrite Gii; exact Hp|apply D; lia].
Qed.

(** Every entry left is too small to divide by. *)
Lemma inv_stop i f x t : 0 <= i < n -> inv i f x t ->
  (forall r c, i <= r < n -> i <= c < n -> (Rabs (f r c) < tiny)%R) ->
  exists y c, 0 <= c < n /\ y c = 1%R /\ forall r, 0 <= r < n -> (Rabs (prod n F0 y r) < tiny)%R.
Proof.
  intros Hi ((rho & Hx) & _ & (sigma & Hg) & [U D]) Hsmall.
  destruct (triangular f (fun _ => 0%R) (fun c => if c =? i then 1%R else 0%R) i) as (z & Z1 & Z2); [lia| | |].
  - intros r Hr e. specialize (D r Hr). rewrite e, Rabs_R0 in D. lra.
  - intros r c Hc Hr. apply U; lia.
  - exists (fun c => z (rho c)), (x i). destruct (Hx i Hi) as (X1 & _ & _ & X2). split; [exact X1|]. split.
    + rewrite X2, Z1, Z.eqb_refl by lia. reflexivity.
    + assert (Y : forall r, prod n f (fun c => z (rho (x c))) r = prod n f z r).
      { intros r. unfold prod. apply rsum_ext. intros c Hc. destruct (Hx c) as (_ & _ & _ & e); [lia|]. rewrite e. reflexivity. }
      intros q Hq. destruct (Hg q Hq) as (S1 & S2). rewrite (S2 (fun c => z (rho c))).
      * rewrite Y. destruct (Z_lt_dec (sigma q) i) as [l|l]; [rewrite Z2 by lia; rewrite Rabs_R0; exact Htiny|].
        assert (E : prod n f z (sigma q) = f (sigma q) i).
        { unfold prod. rewrite (rsum_one N (fun _ => 0%R) _ i); [|lia|].
          - rewrite rsum_zero, Z1, Z.eqb_refl by lia. ring.
          - intros c Hc Hci. destruct (Z_lt_dec c i) as [lc|lc].
            + rewrite U by lia. ring.
            + rewrite Z1 by lia. destruct (Z.eqb_spec c i); [contradiction|]. ring. }
        rewrite E. apply Hsmall; lia.
      * intros s Hs. rewrite Y. apply Z2. exact Hs.
Qed.

(** Back substitution solves the triangular system. *)
Lemma inverse_method_exact m f t tf : mrep n m f -> vrep n t tf -> upper n f ->
  exists u uf, inverse_method exact tiny n m t = Ok u /\ vrep n u uf /\ forall r, 0 <= r < n -> prod n f uf r = tf r.
Proof.
  intros M T [U D]. unfold inverse_method.
  match goal with |- context [for_ 0 n ?g ?s] =>
    destruct (for_inv (fun l u => exists uf, vrep n u uf /\ forall r, n - l <= r < n -> prod n f uf r = tf r) g 0 n s) as (u & E & uf & H1 & H2) end; [lia| | |].
  - exists (fun _ => 0%R). split; [split; reflexivity|lia].
  - intros l u Hl (uf & Hv & Hs). set (i := n - 1 - l). rewrite (mrep_rd n m f i i M) by lia. cbn [bind].
    specialize (D i ltac:(lia)). cbn [alt aabs exact].
    destruct (Rltb (Rabs (f i i)) tiny) eqn:El; [apply Rltb_true in El; lra|].
    assert (Dn : f i i <> 0%R) by (intros e; rewrite e, Rabs_R0 in D; lra).
    match goal with |- context [for_ ?a n ?g ?s] =>
      destruct (for_inv (fun k (x : carrier exact) => x = rsum N (fun c => if (i <? c) && (c <? k) then f i c * uf c else 0)%R) g a n s) as (x & E & Hx) end.
    + lia.
    + cbn [aZ exact]. symmetry. etransitivity; [|exact (rsum_zero N)]. apply rsum_ext. intros c Hc.
      replace ((i <? c) && (c <? i + 1)) with false by lia. reflexivity.
    + intros k x Hk ->. rewrite (vrep_rd n u uf k Hv), (mrep_rd n m f i k M) by lia. cbn [bind].
      eexists. split; [reflexivity|]. cbn [aadd amul exact]. symmetry.
      rewrite (rsum_one N (fun c => if (i <? c) && (c <? k) then f i c * uf c else 0)%R _ k); [|lia|].
      * replace ((i <? k) && (k <? k + 1)) with true by lia. replace ((i <? k) && (k <? k)) with false by lia.
        change (@eq (carrier exact)) with (@eq R). ring.
      * intros c Hc Hck. replace ((i <? c) && (c <? k + 1)) with ((i <? c) && (c <? k)) by lia. reflexivity.
    + rewrite E. cbn [bind]. rewrite (vrep_rd n t tf i T) by lia. cbn [bind].
      destruct (@vrep_wr _ unit n u uf i (adiv exact (asub exact (tf i) x) (f i i)) Hv) as (u' & E' & V'); [lia|].
      exists u'. split; [exact E'|]. eexists. split; [exact V'|]. intros r Hr. cbn [adiv asub exact] in *. unfold prod.
      destruct (Z.eq_dec r i) as [->|Hne].
      * rewrite (rsum_one N (fun c => if (i <? c) && (c <? n) then f i c * uf c else 0)%R _ i); [|lia|].
        -- rewrite <- Hx, Z.eqb_refl. replace ((i <? i) && (i <? n)) with false by lia. field. exact Dn.
        -- intros c Hc Hci. destruct (Z.eqb_spec c i); [contradiction|]. destruct (Z_lt_dec c i).
           ++ replace ((i <? c) && (c <? n)) with false by lia. rewrite U by lia. ring.
           ++ replace ((i <? c) && (c <? n)) with true by lia. reflexivity.
      * rewrite (rsum_one N (fun c => f r c * uf c)%R _ i); [|lia|].
        -- rewrite (U r i) by lia. change (rsum N (fun c => f r c * uf c)%R) with (prod n f uf r). rewrite Hs by lia. ring.
        -- intros c Hc Hci. destruct (Z.eqb_spec c i); [contradiction|reflexivity].
  - exists u, uf. split; [exact E|]. split; [exact H1|]. intros. apply H2. lia.
Qed.

(** The whole function. *)
Lemma getMatrixRoots_exact (m b roots : arr (carrier exact)) : n * n < 2 ^ 64 -> mrep n m F0 -> vrep n b T0 -> n <= alen roots ->
  (exists v, getMatrixRoots exact tiny m b roots = Ok v /\ alen v = alen roots /\
     (forall y, solves y <-> forall c, 0 <= c < n -> y c = aget v c) /\
     (forall k, ~ 0 <= k < n -> aget v k = aget roots k)) \/
  (getMatrixRoots exact tiny m b roots = Throw tt /\
     exists y c, 0 <= c < n /\ y c = 1%R /\ forall r, 0 <= r < n -> (Rabs (prod n F0 y r) < tiny)%R).
Proof.
  intros Hsz M B Hlen. unfold getMatrixRoots. destruct M as [Lm Hm]. pose proof B as [Lb Hb]. rewrite Lm, Lb.
  rewrite u64_small by (change W64 with (2 ^ 64); nia).
  replace ((n * n =? 0) || (n =? 0) || negb (n * n =? n * n) || (n <? 2)) with false
    by (rewrite Z.eqb_refl; cbn [negb]; destruct (Z.eqb_spec (n * n) 0); [nia|]; lia).
  destruct (indices_ok n Hn) as (x & Ex & Hx). rewrite Ex. cbn [bind].
  destruct (direct_rule exact tiny n Hn inv (exists y c, 0 <= c < n /\ y c = 1%R /\ forall r, 0 <= r < n -> (Rabs (prod n F0 y r) < tiny)%R)
    (m, x, b) F0 (fun c => c) T0) as [([[m' x'] t'] & f' & xf & tf & E & (M' & X' & T') & I)|(E & H)].
  - split; [split; assumption|]. split; assumption.
  - exact inv_start.
  - intros i f xf t r c a Hi HI Hr Hc Ha Hmax. specialize (Hmax sane_exact).
    cbn [alt aabs aZ exact] in *. destruct (Rltb a tiny) eqn:Ea.
    + apply Rltb_true in Ea. apply (inv_stop i f xf t Hi HI). intros r' c' Hr' Hc'.
      specialize (Hmax r' c' Hr' Hc'). apply Rltb_false in Hmax. lra.
    + apply Rltb_false in Ea. apply inv_step; auto. destruct Ha as [->| ->]; [lra|exact Ea].
  - left. cbn [fst snd] in *. rewrite E. cbn [bind]. destruct I as ((rho & Hrho) & Hs & _ & Hu).
    destruct (inverse_method_exact m' f' t' tf M' T' Hu) as (u & uf & Eu & Vu & Su). rewrite Eu. cbn [bind].
    destruct (results_ok exact n Hn x' xf u uf roots X' Vu Hlen) as (v & Ev & Lv & Hv & Hv').
    + intros c Hc. apply Hrho. exact Hc.
    + intros c d Hc Hd e. destruct (Hrho c Hc) as (_ & _ & _ & <-). destruct (Hrho d Hd) as (_ & _ & _ & <-). f_equal. exact e.
    + exists v. split; [exact Ev|]. split; [exact Lv|]. split; [|exact Hv'].
      assert (D : forall r, 0 <= r < n -> f' r r <> 0%R).
      { intros r Hr e. destruct Hu as [_ D]. specialize (D r Hr). rewrite e, Rabs_R0 in D. lra. }
      intros y. rewrite <- Hs. split.
      * intros H c Hc. destruct (Hrho c Hc) as (_ & R1 & R2 & _). rewrite <- R2 at 1 2. rewrite Hv by exact R1.
        apply (triangular_unique f' (fun d => y (xf d)) uf D); [intros; apply Hu; lia| |exact R1].
        intros r Hr. rewrite H, Su by exact Hr. reflexivity.
      * intros H r Hr. rewrite <- (Su r Hr). unfold prod. apply rsum_ext. intros c Hc.
        destruct (Hrho c) as (R1 & _); [lia|]. rewrite H by exact R1. rewrite Hv by lia. reflexivity.
  - right. rewrite E. cbn [bind]. auto.
Qed.
End EXACT.
