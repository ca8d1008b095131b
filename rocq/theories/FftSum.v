(** Complex sums, roots of unity and the convolution theorem. *)
From Coq Require Import ZArith List Reals Lia Lra Ring FinFun.
From Verif Require Import FftSpec.
Import ListNotations.
Open Scope R_scope.

Lemma C_eq (a b : C) : fst a = fst b -> snd a = snd b -> a = b.
Proof. destruct a, b. cbn. intros -> ->. reflexivity. Qed.
Ltac csolve := intros; apply C_eq; unfold cadd, csub, cmul, copp, C0, C1, real; cbn [fst snd]; ring.
Lemma C_ring : ring_theory C0 C1 cadd cmul csub copp eq.
Proof. split; csolve. Qed.
Add Ring C_ring_inst : C_ring.

Lemma cis_0 : cis 0 = C1.
Proof. unfold cis. rewrite cos_0, sin_0. reflexivity. Qed.
Lemma cis_add a b : cis (a + b) = cmul (cis a) (cis b).
Proof. unfold cis, cmul. cbn [fst snd]. rewrite cos_plus, sin_plus. f_equal; ring. Qed.
Lemma cis_2PI (k : Z) : cis (2 * PI * IZR k) = C1.
Proof.
  unfold cis, C1.
  assert (N : forall n : nat, cos (2 * PI * INR n) = 1 /\ sin (2 * PI * INR n) = 0).
  { intros n. pose proof (cos_period 0 n). pose proof (sin_period 0 n).
    replace (0 + 2 * INR n * PI) with (2 * PI * INR n) in * by ring. rewrite cos_0, sin_0 in *. auto. }
  destruct (Z_le_dec 0 k) as [H|H].
  - rewrite <- (Z2Nat.id k) by exact H. rewrite <- INR_IZR_INZ. destruct (N (Z.to_nat k)) as [-> ->]. reflexivity.
  - replace (2 * PI * IZR k) with (- (2 * PI * IZR (- k))) by (rewrite opp_IZR; ring).
    rewrite cos_neg, sin_neg. rewrite <- (Z2Nat.id (- k)) by lia. rewrite <- INR_IZR_INZ.
    destruct (N (Z.to_nat (- k))) as [-> ->]. f_equal; ring.
Qed.
Lemma cis_shift t k : cis (t + 2 * PI * IZR k) = cis t.
Proof. rewrite cis_add, cis_2PI. ring. Qed.
Lemma cis_one t : cis t = C1 -> exists k : Z, t = 2 * PI * IZR k.
Proof.
  intros H. injection H as Hc _.
  assert (S : sin (t / 2) = 0).
  { apply Rsqr_0_uniq. unfold Rsqr. pose proof (cos_2a_sin (t / 2)) as K. replace (2 * (t / 2)) with t in K by field. lra. }
  apply sin_eq_0_0 in S. destruct S as (k & Hk). exists k. lra.
Qed.

(** ** Sums *)
Lemma csum_cons {T} (x : T) l f : csum (x :: l) f = cadd (f x) (csum l f).
Proof. reflexivity. Qed.
Lemma csum_nil {T} f : csum (@nil T) f = C0.
Proof. reflexivity. Qed.
Section SUMS.
Context {T : Type}.
Implicit Types l : list T.
Lemma csum_ext l f g : (forall x, In x l -> f x = g x) -> csum l f = csum l g.
Proof. induction l as [|x l IH]; intros H; [reflexivity|]. rewrite !csum_cons, (H x), IH; auto with datatypes. Qed.
Lemma csum_zero l : csum l (fun _ => C0) = C0.
Proof. induction l as [|x l IH]; [reflexivity|]. rewrite csum_cons, IH. ring. Qed.
Lemma csum_add l f g : csum l (fun x => cadd (f x) (g x)) = cadd (csum l f) (csum l g).
Proof. induction l as [|x l IH]; rewrite ?csum_nil, ?csum_cons, ?IH; ring. Qed.
Lemma csum_mul a l f : cmul a (csum l f) = csum l (fun x => cmul a (f x)).
Proof. induction l as [|x l IH]; rewrite ?csum_nil, ?csum_cons, <- ?IH; ring. Qed.
Lemma csum_mul_r a l f : cmul (csum l f) a = csum l (fun x => cmul (f x) a).
Proof. induction l as [|x l IH]; rewrite ?csum_nil, ?csum_cons, <- ?IH; ring. Qed.
Lemma csum_app l l' f : csum (l ++ l') f = cadd (csum l f) (csum l' f).
Proof. induction l as [|x l IH]; cbn [app]; rewrite ?csum_nil, ?csum_cons, ?IH; ring. Qed.
Lemma csum_single l f a : NoDup l -> In a l -> (forall b, In b l -> b <> a -> f b = C0) -> csum l f = f a.
Proof.
  induction l as [|x l IH]; intros Hd Ha H; [contradiction|]. inversion Hd; subst. rewrite csum_cons.
  destruct Ha as [->|Ha].
  - rewrite (csum_ext l f (fun _ => C0)), csum_zero by (intros b Hb; apply H; [right; exact Hb|intros ->; contradiction]). ring.
  - rewrite IH; auto with datatypes. rewrite (H x); [ring|left; reflexivity|intros ->; contradiction].
Qed.
End SUMS.
Lemma csum_swap {T U} (l : list T) (l' : list U) f :
  csum l (fun a => csum l' (fun b => f a b)) = csum l' (fun b => csum l (fun a => f a b)).
Proof.
  induction l as [|x l IH].
  - rewrite csum_nil. symmetry. apply csum_zero.
  - rewrite csum_cons, IH, <- csum_add. reflexivity.
Qed.
Lemma csum_map {T U} (g : T -> U) l f : csum (map g l) f = csum l (fun x => f (g x)).
Proof. induction l as [|x l IH]; [reflexivity|]. cbn [map]. rewrite !csum_cons, IH. reflexivity. Qed.
Lemma csum_prod {T U} (l : list T) (l' : list U) f :
  csum (list_prod l l') f = csum l (fun a => csum l' (fun b => f (a, b))).
Proof. induction l as [|x l IH]; [reflexivity|]. cbn [list_prod]. rewrite csum_app, csum_map, csum_cons, IH. reflexivity. Qed.

Lemma in_upto n i : In i (upto n) <-> (0 <= i < n)%Z.
Proof.
  unfold upto. rewrite in_map_iff. split.
  - intros (k & <- & Hk). apply in_seq in Hk. lia.
  - intros H. exists (Z.to_nat i). split; [lia|]. apply in_seq. lia.
Qed.
Lemma nodup_upto n : NoDup (upto n).
Proof.
  unfold upto. apply Injective_map_NoDup; [|apply seq_NoDup]. intros a b H. apply Nat2Z.inj, H.
Qed.
Lemma upto_S n : (0 <= n)%Z -> upto (n + 1) = upto n ++ [n].
Proof.
  intros H. unfold upto. replace (Z.to_nat (n + 1)) with (S (Z.to_nat n)) by lia.
  rewrite seq_S, map_app. cbn. rewrite Z2Nat.id by exact H. reflexivity.
Qed.
Lemma nodup_prod {T U} (l : list T) (l' : list U) : NoDup l -> NoDup l' -> NoDup (list_prod l l').
Proof.
  intros H H'. induction H as [|x l Hx Hl IH]; [constructor|]. cbn [list_prod].
  assert (G : forall m, NoDup m -> NoDup (map (fun y => (x, y)) m ++ list_prod l l')).
  { induction 1 as [|y m Hy Hm IHm]; [exact IH|]. cbn [map app]. constructor; [|exact IHm].
    intros K. apply in_app_or in K. destruct K as [K|K].
    - apply in_map_iff in K. destruct K as (z & E & Hz). injection E as ->. contradiction.
    - apply in_prod_iff in K. destruct K as (K & _). contradiction. }
  apply G, H'.
Qed.
Lemma in_grid w h a : In a (grid w h) <-> (0 <= fst a < w)%Z /\ (0 <= snd a < h)%Z.
Proof. destruct a as [r s]. unfold grid. rewrite in_prod_iff, !in_upto. reflexivity. Qed.
Lemma nodup_grid w h : NoDup (grid w h).
Proof. apply nodup_prod; apply nodup_upto. Qed.

(** ** Roots of unity *)
Lemma upto_ind (P : Z -> Prop) : P 0%Z -> (forall n, (0 <= n)%Z -> P n -> P (n + 1)%Z) -> forall n, (0 <= n)%Z -> P n.
Proof. intros H0 HS. apply natlike_ind; [exact H0|]. intros. apply HS; assumption. Qed.
Lemma csum_const n (c : C) : (0 <= n)%Z -> csum (upto n) (fun _ => c) = cmul (real (IZR n)) c.
Proof.
  revert n. apply (upto_ind (fun n => csum (upto n) (fun _ => c) = cmul (real (IZR n)) c)).
  - cbn. csolve.
  - intros n Hn IH. rewrite upto_S, csum_app, IH, plus_IZR by exact Hn. rewrite csum_cons, csum_nil. csolve.
Qed.
Lemma roots n d : (0 < n)%Z ->
  csum (upto n) (fun k => cis (2 * PI * IZR (k * d) / IZR n)) = if (d mod n =? 0)%Z then real (IZR n) else C0.
Proof.
  intros Hn. assert (Hn' : IZR n <> 0) by (apply not_0_IZR; lia).
  destruct (Z.eqb_spec (d mod n) 0) as [E|E].
  - rewrite (csum_ext _ _ (fun _ => C1)).
    + rewrite csum_const by lia. csolve.
    + intros k _. rewrite (Z.div_mod d n) by lia. rewrite E.
      replace (2 * PI * IZR (k * (n * (d / n) + 0)) / IZR n) with (2 * PI * IZR (k * (d / n))).
      * apply cis_2PI.
      * rewrite Z.add_0_r, !mult_IZR. field. exact Hn'.
  - set (z := cis (2 * PI * IZR d / IZR n)).
    assert (G : forall m, (0 <= m)%Z -> cmul (csub z C1) (csum (upto m) (fun k => cis (2 * PI * IZR (k * d) / IZR n)))
                = csub (cis (2 * PI * IZR (m * d) / IZR n)) C1).
    { apply (upto_ind (fun m => cmul (csub z C1) (csum (upto m) (fun k => cis (2 * PI * IZR (k * d) / IZR n)))
                = csub (cis (2 * PI * IZR (m * d) / IZR n)) C1)).
      - change (upto 0) with (@nil Z). rewrite csum_nil, Z.mul_0_l.
        replace (2 * PI * 0 / IZR n) with 0 by (field; exact Hn'). rewrite cis_0. ring.
      - intros m Hm IH. rewrite upto_S, csum_app by exact Hm. rewrite csum_cons, csum_nil.
        set (t := cis (2 * PI * IZR (m * d) / IZR n)) in *. set (S := csum (upto m) _) in *.
        replace (cis (2 * PI * IZR ((m + 1) * d) / IZR n)) with (cmul z t).
        + replace (cmul (csub z C1) (cadd S (cadd t C0))) with (cadd (cmul (csub z C1) S) (csub (cmul z t) t)) by ring.
          rewrite IH. ring.
        + unfold z, t. rewrite <- cis_add. f_equal. rewrite Z.mul_add_distr_r, plus_IZR, Z.mul_1_l. field. exact Hn'. }
    specialize (G n ltac:(lia)).
    replace (2 * PI * IZR (n * d) / IZR n) with (2 * PI * IZR d) in G by (rewrite mult_IZR; field; exact Hn').
    rewrite cis_2PI in G. replace (csub C1 C1) with C0 in G by ring.
    set (S := csum (upto n) _) in *.
    assert (Hz : z <> C1).
    { intros K. apply cis_one in K. destruct K as (k & Hk). apply E.
      assert (H : IZR d = IZR (k * n)).
      { rewrite mult_IZR. apply Rmult_eq_reg_l with (2 * PI / IZR n).
        - replace (2 * PI / IZR n * IZR d) with (2 * PI * IZR d / IZR n) by (field; exact Hn'). rewrite Hk. field. exact Hn'.
        - pose proof PI_RGT_0. apply Rmult_integral_contrapositive_currified; [lra|]. apply Rinv_neq_0_compat, Hn'. }
      apply eq_IZR in H. subst d. apply Z_mod_mult. }
    destruct z as [a b], S as [x y]. unfold cmul, csub, C1, C0 in *. cbn [fst snd] in *. injection G as G1 G2.
    set (a' := a - 1) in *. replace (b - 0) with b in * by ring.
    assert (Hab : a' * a' + b * b <> 0).
    { intros K. apply Hz. assert (a' = 0 /\ b = 0) as [Ka Kb] by (split; nra). f_equal; [unfold a' in Ka; lra|exact Kb]. }
    f_equal; apply Rmult_eq_reg_l with (a' * a' + b * b); try exact Hab.
    + replace ((a' * a' + b * b) * x) with (a' * (a' * x - b * y) + b * (a' * y + b * x)) by ring. rewrite G1, G2. ring.
    + replace ((a' * a' + b * b) * y) with (a' * (a' * y + b * x) - b * (a' * x - b * y)) by ring. rewrite G1, G2. ring.
Qed.

(** ** Convolution *)
Lemma csum_times {T U} (l : list T) (l' : list U) f g :
  cmul (csum l f) (csum l' g) = csum l (fun a => csum l' (fun b => cmul (f a) (g b))).
Proof. rewrite csum_mul_r. apply csum_ext. intros a _. apply csum_mul. Qed.

(** three characters of one index *)
Lemma characters n k a b p : (0 < n)%Z ->
  cmul (cmul (cis (angle false n a k)) (cis (angle false n b k))) (cis (angle true n k p))
  = cis (2 * PI * IZR (k * (p - a - b)) / IZR n).
Proof.
  intros Hn. rewrite <- !cis_add. f_equal. unfold angle. rewrite !mult_IZR, !minus_IZR.
  field. apply not_0_IZR. lia.
Qed.

Lemma convolution_theorem w h f g p q : (0 < w)%Z -> (0 < h)%Z ->
  dft2 true w h (fun i t => cmul (dft2 false w h f i t) (dft2 false w h g i t)) p q
  = cmul (real (IZR (w * h))) (convolution w h f g p q).
Proof.
  intros Hw Hh. unfold dft2 at 1.
  rewrite (csum_ext _ _ (fun k => csum (grid w h) (fun a => csum (grid w h) (fun b =>
    cmul (cmul (f (fst a) (snd a)) (g (fst b) (snd b)))
      (cmul (cis (2 * PI * IZR (fst k * (p - fst a - fst b)) / IZR w)) (cis (2 * PI * IZR (snd k * (q - snd a - snd b)) / IZR h))))))).
  2:{ intros k _. unfold dft2. rewrite csum_times, csum_mul_r. apply csum_ext. intros a _.
      rewrite csum_mul_r. apply csum_ext. intros b _. rewrite <- (characters w (fst k) (fst a) (fst b) p Hw), <- (characters h (snd k) (snd a) (snd b) q Hh). ring. }
  rewrite csum_swap. unfold convolution. rewrite csum_mul. apply csum_ext. intros a _. rewrite csum_swap.
  set (b0 := ((p - fst a) mod w, (q - snd a) mod h)%Z).
  rewrite (csum_ext _ _ (fun b => cmul (cmul (f (fst a) (snd a)) (g (fst b) (snd b)))
     (cmul (if ((p - fst a - fst b) mod w =? 0)%Z then real (IZR w) else C0)
           (if ((q - snd a - snd b) mod h =? 0)%Z then real (IZR h) else C0)))).
  2:{ intros b _. rewrite <- csum_mul. f_equal. unfold grid. rewrite csum_prod. cbn [fst snd].
      rewrite <- csum_times, !roots by assumption. reflexivity. }
  rewrite (csum_single _ _ b0).
  - subst b0. cbn [fst snd].
    replace ((p - fst a - (p - fst a) mod w) mod w)%Z with 0%Z.
    2:{ rewrite Zminus_mod_idemp_r, Z.sub_diag. symmetry. apply Zmod_0_l. }
    replace ((q - snd a - (q - snd a) mod h) mod h)%Z with 0%Z.
    2:{ rewrite Zminus_mod_idemp_r, Z.sub_diag. symmetry. apply Zmod_0_l. }
    cbn [Z.eqb]. replace (real (IZR (w * h))) with (cmul (real (IZR w)) (real (IZR h))) by (rewrite mult_IZR; csolve). ring.
  - apply nodup_grid.
  - apply in_grid. split; apply Z.mod_pos_bound; assumption.
  - intros b Hb Hne. apply in_grid in Hb.
    destruct (Z.eqb_spec ((p - fst a - fst b) mod w) 0) as [E1|E1]; [|ring].
    destruct (Z.eqb_spec ((q - snd a - snd b) mod h) 0) as [E2|E2]; [|ring].
    exfalso. apply Hne. destruct b as [b1 b2]. cbn [fst snd] in *. subst b0. f_equal.
    + apply Z.mod_divide in E1; [|lia]. destruct E1 as (k & Hk). apply Z.mod_unique with k; lia.
    + apply Z.mod_divide in E2; [|lia]. destruct E2 as (k & Hk). apply Z.mod_unique with k; lia.
Qed.
