(** Proofs about the edge detection model: the part on one scan line. *)
From Coq Require Import ZArith List Bool Lia Reals Lra.
From Verif Require Import Base BaseProofs Image Spec ImgFun Double DoubleProofs Blob Edge NumProofs ReduceProofs FileProofs.
From Coq Require Import Floats.SpecFloat.
From Flocq Require Import Core IEEE754.BinarySingleNaN.
Import ListNotations.
Open Scope Z_scope.
Ltac Zify.zify_post_hook ::= Z.div_mod_to_equations.

Definition at_z (l : list Z) (i : Z) : Z := nth (Z.to_nat i) l 0.

Lemma vnth_ok {E} l i : 0 <= i < Z.of_nat (length l) -> @vnth E l i = Ok (at_z l i).
Proof.
  intros H. unfold vnth. destruct (Z.leb_spec 0 i); [|lia]. destruct (Z.ltb_spec i (Z.of_nat (length l))); [|lia].
  reflexivity.
Qed.

Lemma int32_ok v : -2147483648 <= v < 2147483648 -> int32 v = Ok v.
Proof.
  intros H. unfold int32. destruct (Z.leb_spec (-2147483648) v); [|lia].
  destruct (Z.ltb_spec v 2147483648); [|lia]. reflexivity.
Qed.

(** ** Derivatives *)
Fixpoint diffs (l : list Z) : list Z :=
  match l with
  | a :: l' => match l' with b :: _ => (b - a) :: diffs l' | [] => [] end
  | [] => []
  end.

Lemma diffs_length l : length (diffs l) = (length l - 1)%nat.
Proof.
  induction l as [|a l IH]; [reflexivity|]. destruct l as [|b l]; [reflexivity|].
  change (diffs (a :: b :: l)) with ((b - a) :: diffs (b :: l)). cbn [length] in *. lia.
Qed.

Lemma diffs_nth l : forall i, (S i < length l)%nat -> nth i (diffs l) 0 = nth (S i) l 0 - nth i l 0.
Proof.
  induction l as [|a l IH]; intros i Hi; [simpl in Hi; lia|]. destruct l as [|b l]; [simpl in Hi; lia|].
  change (diffs (a :: b :: l)) with ((b - a) :: diffs (b :: l)). destruct i as [|i]; [reflexivity|].
  change (nth (S i) (b - a :: diffs (b :: l)) 0) with (nth i (diffs (b :: l)) 0).
  rewrite IH by (simpl in *; lia). reflexivity.
Qed.

Lemma transform_minus_ok l : forall out, (length l - 1 <= length out)%nat ->
  Forall (fun d => -2147483648 <= d < 2147483648) (diffs l) ->
  transform_minus (tl l) l out = Ok (diffs l ++ skipn (length l - 1) out).
Proof.
  induction l as [|a l IH]; intros out Ho Hd; [reflexivity|].
  destruct l as [|b l]; [reflexivity|].
  change (diffs (a :: b :: l)) with ((b - a) :: diffs (b :: l)) in *.
  destruct out as [|o out]; [simpl in Ho; lia|].
  inversion Hd as [|? ? H1 H2]; subst.
  cbn [tl]. change (transform_minus (b :: l) (a :: b :: l) (o :: out))
    with (do d <- int32 (b - a); do r <- transform_minus l (b :: l) out; Ok (d :: r)).
  rewrite (int32_ok (b - a)) by lia. cbn [bind].
  change (transform_minus l (b :: l) out) with (transform_minus (tl (b :: l)) (b :: l) out).
  rewrite IH; [|simpl in *; lia|exact H2]. cbn [bind].
  replace (length (a :: b :: l) - 1)%nat with (S (length (b :: l) - 1)) by (simpl; lia).
  reflexivity.
Qed.

(** The derivative vectors of [d]. *)
Definition D1 (d : list Z) : list Z := diffs d ++ [0].
Definition D2 (d : list Z) : list Z := 0 :: diffs (D1 d).

Definition vec_ok (n : nat) (first second : list Z) : Prop :=
  length first = n /\ skipn (n - 1) first = [0] /\ length second = n /\ hd 1 second = 0.

Definition within (B : Z) (d : list Z) : Prop := Forall (fun v => 0 <= v <= B) d.

Lemma Forall_diffs (lo hi : Z) l : Forall (fun v => lo <= v <= hi) l ->
  Forall (fun v => lo - hi <= v <= hi - lo) (diffs l).
Proof.
  induction l as [|a l IH]; intros H; [constructor|]. destruct l as [|b l]; [constructor|].
  change (diffs (a :: b :: l)) with ((b - a) :: diffs (b :: l)).
  inversion H as [|? ? H1 H2]; subst. inversion H2; subst. constructor; [lia|]. apply IH. exact H2.
Qed.

Lemma D1_length d : (1 <= length d)%nat -> length (D1 d) = length d.
Proof. intros H. unfold D1. rewrite app_length, diffs_length. simpl. lia. Qed.
Lemma D2_length d : (1 <= length d)%nat -> length (D2 d) = length d.
Proof. intros H. unfold D2. simpl. rewrite diffs_length, D1_length by exact H. lia. Qed.

Lemma D1_within B d : 0 <= B -> within B d -> Forall (fun v => - B <= v <= B) (D1 d).
Proof.
  intros HB H. unfold D1. apply Forall_app. split.
  - eapply Forall_impl; [|apply (Forall_diffs 0 B d H)]. cbv beta. intros. lia.
  - constructor; [lia|constructor].
Qed.
Lemma D2_within B d : 0 <= B -> within B d -> Forall (fun v => - (2 * B) <= v <= 2 * B) (D2 d).
Proof.
  intros HB H. unfold D2. constructor; [lia|].
  eapply Forall_impl; [|apply (Forall_diffs (- B) B _ (D1_within B d HB H))]. cbv beta. intros. lia.
Qed.

Lemma Forall_at (P : Z -> Prop) l i : Forall P l -> 0 <= i < Z.of_nat (length l) -> P (at_z l i).
Proof. intros H Hi. rewrite Forall_forall in H. apply H. apply nth_In. lia. Qed.

Lemma getDerivatives_ok B d first second : (2 <= length d)%nat -> 0 <= B -> 4 * B < 2147483648 ->
  within B d -> vec_ok (length d) first second ->
  getDerivatives d first second = Ok (D1 d, D2 d) /\ vec_ok (length d) (D1 d) (D2 d).
Proof.
  intros Hn HB H4 Hd (V1 & V2 & V3 & V4). split.
  - unfold getDerivatives. rewrite transform_minus_ok; [|lia|].
    + cbn [bind]. rewrite V2. fold (D1 d).
      destruct second as [|s0 s]; [simpl in V3; lia|]. cbn [hd] in V4. subst s0.
      rewrite transform_minus_ok.
      * cbn [bind]. rewrite skipn_all2; [rewrite app_nil_r; reflexivity|].
        rewrite D1_length by lia. simpl in V3. lia.
      * rewrite D1_length by lia. simpl in V3. lia.
      * eapply Forall_impl; [|apply (Forall_diffs (- B) B _ (D1_within B d HB Hd))]. cbv beta. intros. lia.
    + eapply Forall_impl; [|apply (Forall_diffs 0 B d Hd)]. cbv beta. intros. lia.
  - split; [apply D1_length; lia|]. split; [|split; [apply D2_length; lia|reflexivity]].
    unfold D1. replace (length d - 1)%nat with (length (diffs d)) by (rewrite diffs_length; reflexivity).
    rewrite skipn_app, skipn_all, Nat.sub_diag. reflexivity.
Qed.

Lemma D1_at d i : 0 <= i < Z.of_nat (length d) - 1 -> at_z (D1 d) i = at_z d (i + 1) - at_z d i.
Proof.
  intros H. unfold at_z, D1. rewrite app_nth1 by (rewrite diffs_length; lia).
  rewrite diffs_nth by lia. f_equal. f_equal. lia.
Qed.
Lemma D2_at d i : 1 <= i < Z.of_nat (length d) - 1 -> at_z (D2 d) i = at_z (D1 d) i - at_z (D1 d) (i - 1).
Proof.
  intros H. unfold at_z, D2. replace (Z.to_nat i) with (S (Z.to_nat (i - 1))) at 1 by lia.
  cbn [nth]. rewrite diffs_nth by (rewrite D1_length; lia). f_equal. f_equal. lia.
Qed.

(** ** The scans *)
Definition rising (first : list Z) (a b : Z) : Prop := forall t, a < t < b -> 0 < at_z first t.

Lemma left_scan_ok first half mn mx : 1 <= mn -> forall j normal,
  (j < length first)%nat ->
  exists nl ml, left_scan first half mn mx j normal = Ok (nl, ml) /\
    (forall a, nl = Some a -> normal = Some a \/ (0 <= a <= Z.of_nat j /\ rising first a (Z.of_nat j + 1))) /\
    (forall a, ml = Some a -> 0 <= a <= Z.of_nat j /\ rising first a (Z.of_nat j + 1)).
Proof.
  intros Hmn. induction j as [|j IH]; intros normal Hj; cbn [left_scan]; rewrite vnth_ok by lia; cbn [bind].
  - set (v := at_z first _). set (n' := match normal with None => _ | Some _ => _ end).
    assert (N : forall a, n' = Some a -> normal = Some a \/ (0 <= a <= Z.of_nat 0 /\ rising first a (Z.of_nat 0 + 1))).
    { unfold n'. intros a. destruct normal; [auto|]. destruct (v <? half); intros E; inversion E. right.
      split; [lia|]. intros t Ht. lia. }
    destruct (v <? mn); [|destruct (mx <? v)]; do 2 eexists; (split; [reflexivity|]); (split; [exact N|]);
      intros a E; inversion E. split; [lia|]. intros t Ht. lia.
  - set (v := at_z first _). set (n' := match normal with None => _ | Some _ => _ end).
    assert (N : forall a, n' = Some a -> normal = Some a \/
                  (0 <= a <= Z.of_nat (S j) /\ rising first a (Z.of_nat (S j) + 1))).
    { unfold n'. intros a. destruct normal; [auto|]. destruct (v <? half); intros E; inversion E. right.
      split; [lia|]. intros t Ht. lia. }
    destruct (Z.ltb_spec v mn) as [|Hv]; [|destruct (mx <? v)].
    + do 2 eexists; (split; [reflexivity|]); (split; [exact N|]); intros a E; inversion E.
      split; [lia|]. intros t Ht. lia.
    + do 2 eexists; (split; [reflexivity|]); (split; [exact N|]); intros a E; inversion E.
    + assert (EXT : forall a, 0 <= a <= Z.of_nat j /\ rising first a (Z.of_nat j + 1) ->
                0 <= a <= Z.of_nat (S j) /\ rising first a (Z.of_nat (S j) + 1)).
      { intros a (Q1 & Q2). split; [lia|]. intros t Ht.
        destruct (Z.eq_dec t (Z.of_nat (S j))) as [->|]; [fold v; lia|apply Q2; lia]. }
      destruct (IH n') as (nl & ml & E & H1 & H2); [lia|].
      exists nl, ml. split; [exact E|]. split.
      * intros a Ha. destruct (H1 a Ha) as [Q|Q]; [apply N; exact Q|]. right. apply EXT. exact Q.
      * intros a Ha. apply EXT. apply H2. exact Ha.
Qed.

Lemma right_scan_ok first half mn mx : 1 <= mn -> forall k j normal,
  0 <= j -> j + Z.of_nat k <= Z.of_nat (length first) ->
  exists nl ml, right_scan first half mn mx k j normal = Ok (nl, ml) /\
    (forall a, nl = Some a -> normal = Some a \/ (j <= a < j + Z.of_nat k /\ rising first (j - 1) a)) /\
    (forall a, ml = Some a -> j <= a < j + Z.of_nat k /\ rising first (j - 1) a).
Proof.
  intros Hmn. induction k as [|k IH]; intros j normal H0 Hj; cbn [right_scan].
  - do 2 eexists. split; [reflexivity|]. split; [auto|discriminate].
  - rewrite vnth_ok by lia; cbn [bind].
    set (v := at_z first _). set (n' := match normal with None => _ | Some _ => _ end).
    assert (N : forall a, n' = Some a -> normal = Some a \/ (j <= a < j + Z.of_nat (S k) /\ rising first (j - 1) a)).
    { unfold n'. intros a. destruct normal; [auto|]. destruct (v <? half); intros E; inversion E. right.
      split; [lia|]. intros t Ht. lia. }
    destruct (Z.ltb_spec v mn) as [|Hv]; [|destruct (mx <? v)].
    + do 2 eexists; (split; [reflexivity|]); (split; [exact N|]); intros a E; inversion E.
      split; [lia|]. intros t Ht. lia.
    + do 2 eexists; (split; [reflexivity|]); (split; [exact N|]); intros a E; inversion E.
    + assert (EXT : forall a, j + 1 <= a < j + 1 + Z.of_nat k /\ rising first (j + 1 - 1) a ->
                j <= a < j + Z.of_nat (S k) /\ rising first (j - 1) a).
      { intros a (Q1 & Q2). split; [lia|]. intros t Ht.
        destruct (Z.eq_dec t j) as [->|]; [fold v; lia|apply Q2; lia]. }
      destruct (IH (j + 1) n') as (nl & ml & E & H1 & H2); [lia|lia|].
      exists nl, ml. split; [exact E|]. split.
      * intros a Ha. destruct (H1 a Ha) as [Q|Q]; [apply N; exact Q|]. right. apply EXT. exact Q.
      * intros a Ha. apply EXT. apply H2. exact Ha.
Qed.

(** ** findPoint *)
Lemma nth_firstn_lt (l : list Z) : forall n k d, (k < n)%nat -> nth k (firstn n l) d = nth k l d.
Proof.
  induction l as [|a l IH]; intros n k d H.
  - rewrite firstn_nil. reflexivity.
  - destruct n as [|n]; [lia|]. destruct k as [|k]; [reflexivity|]. cbn [firstn nth]. apply IH. lia.
Qed.
Lemma nth_skipn_add (l : list Z) : forall n k d, nth k (skipn n l) d = nth (n + k) l d.
Proof.
  induction l as [|a l IH]; intros n k d.
  - rewrite skipn_nil. destruct (n + k)%nat, k; reflexivity.
  - destruct n as [|n]; [reflexivity|]. cbn [skipn Nat.add nth]. apply IH.
Qed.

Lemma range_ok l a b : 0 <= a <= b -> b <= Z.of_nat (length l) ->
  exists r, range l a b = Ok r /\ Z.of_nat (length r) = b - a /\
    (forall v, In v r -> exists i, a <= i < b /\ v = at_z l i) /\
    (forall k, 0 <= k < b - a -> at_z r k = at_z l (a + k)).
Proof.
  intros H1 H2. unfold range. destruct (Z.leb_spec 0 a); [|lia]. destruct (Z.leb_spec a b); [|lia].
  destruct (Z.leb_spec b (Z.of_nat (length l))); [|lia]. cbn [andb].
  eexists. split; [reflexivity|]. split; [|split].
  - rewrite firstn_length, skipn_length. lia.
  - intros v Hv. destruct (In_nth _ _ 0 Hv) as (k & Hk & Ek).
    rewrite firstn_length, skipn_length in Hk. exists (a + Z.of_nat k). split; [lia|].
    rewrite <- Ek. unfold at_z. rewrite nth_firstn_lt by lia.
    rewrite nth_skipn_add. f_equal. lia.
  - intros k Hk. unfold at_z. rewrite nth_firstn_lt by lia. rewrite nth_skipn_add. f_equal. lia.
Qed.

Lemma max_element_ok l : l <> [] -> exists v, max_element l = Ok v /\ In v l.
Proof.
  intros H. destruct l as [|a l]; [congruence|]. cbn [max_element]. eexists. split; [reflexivity|].
  clear H. revert a. induction l as [|b l IH]; intros a; [left; reflexivity|]. cbn [fold_left].
  destruct (IH (Z.max a b)) as [E|E].
  - rewrite <- E. destruct (Z.max_spec a b) as [(_ & ->)|(_ & ->)]; [right; left|left]; reflexivity.
  - right. right. exact E.
Qed.
Lemma min_element_ok l : l <> [] -> exists v, min_element l = Ok v /\ In v l.
Proof.
  intros H. destruct l as [|a l]; [congruence|]. cbn [min_element]. eexists. split; [reflexivity|].
  clear H. revert a. induction l as [|b l IH]; intros a; [left; reflexivity|]. cbn [fold_left].
  destruct (IH (Z.min a b)) as [E|E].
  - rewrite <- E. destruct (Z.min_spec a b) as [(_ & ->)|(_ & ->)]; [left|right; left]; reflexivity.
  - right. right. exact E.
Qed.

(** Position [i] is inside a stretch of the profile on which the values rise; two values of the
    stretch differ by at least [c]. *)
Definition contrast (d : list Z) (i c : Z) : Prop :=
  exists a b p q, 0 <= a <= i /\ i < b < Z.of_nat (length d) /\ rising (D1 d) a b /\
    a <= p <= b /\ a <= q <= b /\ at_z d q - at_z d p >= c.

(** The means to the left and to the right of [i] differ by at least [c]. *)
Definition sides (d : list Z) (B i lc rc c : Z) : Prop :=
  0 < lc -> 0 < rc -> lc <= i /\ i + rc < Z.of_nat (length d) /\
  ((lc + 1) * B <= 2 ^ 24 -> rc * B <= 2 ^ 24 ->
   (IZR c - bpow radix2 (-20) <=
    IZR (zsum rc (fun t => at_z d (i + 1 + t))) / IZR rc - IZR (zsum (lc + 1) (fun t => at_z d (i - lc + t))) / IZR (lc + 1))%R).

Lemma accumulate_ok B l : 0 <= B -> within B l -> Z.of_nat (length l) * B <= 2 ^ 24 ->
  isN FLOAT (accumulate l) (IZR (zsum (Z.of_nat (length l)) (at_z l))) /\
  0 <= zsum (Z.of_nat (length l)) (at_z l) <= Z.of_nat (length l) * B.
Proof.
  intros HB. unfold accumulate. pattern l. apply rev_ind.
  - intros _ _. split; [|cbn; lia]. cbn. exists (B754_zero false). split; [reflexivity|]. split; reflexivity.
  - intros a r IH Hw Hl. apply Forall_app in Hw. destruct Hw as [Hr Ha]. inversion_clear Ha.
    rewrite app_length in *. cbn [length] in *. rewrite Nat2Z.inj_add in *.
    rewrite Z.mul_add_distr_r in *. change (Z.of_nat 1 * B) with (1 * B) in *.
    destruct IH as (I1 & I2); [exact Hr|lia|].
    rewrite fold_left_app. cbn [fold_left].
    replace (zsum (Z.of_nat (length r) + Z.of_nat 1) (at_z (r ++ [a]))) with (zsum (Z.of_nat (length r)) (at_z r) + a).
    2:{ change (Z.of_nat 1) with 1. rewrite zsum_S by lia. f_equal.
        - apply zsum_ext. intros k Hk. unfold at_z. rewrite app_nth1 by lia. reflexivity.
        - unfold at_z. rewrite Nat2Z.id, app_nth2 by lia. rewrite Nat.sub_diag. reflexivity. }
    set (S := zsum _ _) in *. assert (HS : 0 <= S + a <= 2 ^ 24) by lia.
    split; [|lia].
    assert (HT : real_type FLOAT) by (left; reflexivity).
    assert (E : IZR (S + a) = rndN FLOAT (IZR S + rndN FLOAT (IZR a))).
    { rewrite (rndN_IZR FLOAT a) by (auto; cbn [FLOAT fst]; lia). rewrite <- plus_IZR. rewrite rndN_IZR; auto. cbn [FLOAT fst]; lia. }
    rewrite E. unfold tadd. apply isT_add; try (cbn [FLOAT fst snd]; lia).
    + exact I1.
    + apply isT_ofZ; cbn [FLOAT fst snd]; lia.
    + fold (rndN FLOAT). change (rndT (fst FLOAT) (snd FLOAT)) with (rndN FLOAT). rewrite <- E.
      rewrite Rabs_pos_eq by (apply IZR_le; lia).
      apply Rle_lt_trans with (bpow radix2 24); [|apply bpow_lt; cbn; lia].
      rewrite <- (IZR_Zpower radix2) by lia. apply IZR_le. change (Zpower radix2 24) with (2 ^ 24). lia.
Qed.

Lemma quotient_ok x S q : isR x (IZR S) -> 0 <= S <= 2 ^ 24 -> 1 <= q <= 2 ^ 24 ->
  isR (ddiv x (dofZ q)) (rnd (IZR S / IZR q)) /\
  (Rabs (rnd (IZR S / IZR q) - IZR S / IZR q) <= bpow radix2 (-29))%R /\
  (Rabs (rnd (IZR S / IZR q)) <= bpow radix2 24)%R.
Proof.
  intros Hx HS Hq.
  assert (Q : (0 <= IZR S / IZR q <= bpow radix2 24)%R).
  { assert (1 <= IZR q)%R by (apply IZR_le; lia). destruct (IZR_bpow S 24) as [S0 S1]; [lia|lia|].
    split; [apply Rmult_le_pos; [exact S0|left; apply Rinv_0_lt_compat; lra]|].
    apply Rmult_le_reg_r with (IZR q); [lra|]. unfold Rdiv. rewrite Rmult_assoc, Rinv_l, Rmult_1_r by lra.
    apply Rle_trans with (bpow radix2 24 * 1)%R; [lra|]. apply Rmult_le_compat_l; [apply bpow_ge_0|lra]. }
  assert (A : (Rabs (IZR S / IZR q) <= bpow radix2 24)%R) by (rewrite Rabs_pos_eq; lra).
  pose proof (rnd_bound _ 24 ltac:(lia) A) as RB. pose proof (rnd_error _ 24 ltac:(lia) A) as RE.
  split; [|split; [exact RE|exact RB]].
  apply isR_div; [exact Hx|apply isR_ofZ; lia|apply IZR_neq; lia|].
  eapply bound_big; [|exact RB]. lia.
Qed.

Lemma side_test w b nw nb Sw Sb c :
  isN FLOAT w (IZR Sw) -> isN FLOAT b (IZR Sb) -> 0 <= Sw <= 2 ^ 24 -> 0 <= Sb <= 2 ^ 24 ->
  1 <= nw <= 2 ^ 24 -> 1 <= nb <= 2 ^ 24 -> Z.abs c <= 2 ^ 32 ->
  dle (dofZ c) (dsub (ddiv (tcast DOUBLE w) (dofZ nw)) (ddiv (tcast DOUBLE b) (dofZ nb))) = true ->
  (IZR c - bpow radix2 (-20) <= IZR Sw / IZR nw - IZR Sb / IZR nb)%R.
Proof.
  intros Hw Hb H1 H2 H3 H4 Hc H.
  assert (HT : real_type FLOAT) by (left; reflexivity).
  apply (isN_widen _ _ _ HT) in Hw. apply (isN_widen _ _ _ HT) in Hb.
  destruct (quotient_ok _ _ nw Hw H1 H3) as (W1 & W2 & W3).
  destruct (quotient_ok _ _ nb Hb H2 H4) as (B1 & B2 & B3).
  set (rw := rnd (IZR Sw / IZR nw)) in *. set (rb := rnd (IZR Sb / IZR nb)) in *.
  assert (A : (Rabs (rw - rb) <= bpow radix2 25)%R).
  { unfold Rminus. eapply Rle_trans; [apply Rabs_triang|]. rewrite Rabs_Ropp. change 25 with (1 + 24). rewrite bpow_plus.
    change (bpow radix2 1) with 2%R. lra. }
  assert (D : isR (dsub (ddiv (tcast DOUBLE w) (dofZ nw)) (ddiv (tcast DOUBLE b) (dofZ nb))) (rnd (rw - rb))).
  { apply isR_sub; auto. eapply bound_big; [|apply rnd_bound; [|exact A]]; lia. }
  rewrite (isR_le _ _ _ _ (isR_ofZ c ltac:(lia)) D) in H.
  destruct (Rle_bool_spec (IZR c) (rnd (rw - rb))) as [K|K]; [|discriminate].
  pose proof (rnd_error _ 25 ltac:(lia) A) as RE. change (25 - 53) with (-28) in RE.
  apply Rabs_le_inv in RE. apply Rabs_le_inv in W2. apply Rabs_le_inv in B2.
  assert (E1 : (bpow radix2 (-29) <= bpow radix2 (-22))%R) by (apply bpow_le; lia).
  assert (E2 : (bpow radix2 (-28) <= bpow radix2 (-22))%R) by (apply bpow_le; lia).
  assert (E3 : (bpow radix2 (-20) = 4 * bpow radix2 (-22))%R).
  { change (-20) with (2 + -22). rewrite bpow_plus. change (bpow radix2 2) with 4%R. reflexivity. }
  lra.
Qed.

Lemma findPoint_ok T data B left right minC chk lc rc i :
  let n := Z.of_nat (length data) in
  0 <= B -> 4 * B < 2147483648 -> within B data -> 0 <= left <= right -> right < n ->
  left <= i < right -> rising (D1 data) left right -> Z.abs minC <= 2 ^ 32 ->
  1 <= i <= n - 3 -> n < W32 -> 0 <= lc < W32 -> 0 <= rc -> (chk = (0 <? lc) && (0 <? rc)) -> rc + n <= W32 ->
  at_z (D2 data) i >= 0 -> at_z (D2 data) (i + 1) <= 0 ->
  exists o, findPoint T data (D2 data) left right minC chk lc rc i n = Ok o /\
    forall v, o = Some v -> v = pt T i (at_z (D2 data) i) (at_z (D2 data) (i + 1)) /\ contrast data i minC /\
      sides data B i lc rc minC.
Proof.
  intros n HB H4 Hd Hl Hr Hlr Hris HmC Hi Hn Hlc Hrc Hck Hrn Ha Hb. unfold findPoint.
  destruct (range_ok data left (right + 1)) as (r & -> & Lr & Ir & _); [lia|fold n; lia|]. cbn [bind].
  assert (Rn : r <> []) by (intros ->; simpl in Lr; lia).
  destruct (max_element_ok r Rn) as (mx & -> & Imx). cbn [bind].
  destruct (min_element_ok r Rn) as (mn & -> & Imn). cbn [bind].
  destruct (Ir mx Imx) as (q & Hq & ->). destruct (Ir mn Imn) as (p & Hp & ->).
  pose proof (Forall_at _ data q Hd ltac:(fold n; lia)) as Wq. cbv beta in Wq.
  pose proof (Forall_at _ data p Hd ltac:(fold n; lia)) as Wp. cbv beta in Wp.
  rewrite int32_ok by lia. cbn [bind].
  destruct (Z.ltb_spec (at_z data q - at_z data p) minC) as [Lt|Ge].
  { eexists. split; [reflexivity|]. discriminate. }
  assert (CT : contrast data i minC) by (exists left, right, p, q; fold n; repeat split; auto; lia).
  assert (U1 : u32 (i + 1) = i + 1) by (apply u32_small; lia).
  set (inner := if chk && (lc <=? i) && (u32 (rc + i) <? n) then _ else _).
  assert (exists c, inner = Ok c /\ (c = false -> sides data B i lc rc minC)) as (c & -> & CS).
  { unfold inner. destruct (chk && (lc <=? i) && (u32 (rc + i) <? n)) eqn:Ck.
    2:{ eexists. split; [reflexivity|]. intros Ec L0 R0.
        rewrite Ec in Hck. symmetry in Hck. apply andb_false_iff in Hck.
        destruct Hck as [Q|Q]; apply Z.ltb_ge in Q; lia. }
    apply andb_prop in Ck. destruct Ck as [Ck Ck3]. apply andb_prop in Ck. destruct Ck as [Ck1 Ck2].
    rewrite Ck1 in Hck. symmetry in Hck. apply andb_prop in Hck. destruct Hck as [L0 R0].
    apply Z.ltb_lt in L0. apply Z.ltb_lt in R0.
    apply Z.leb_le in Ck2. apply Z.ltb_lt in Ck3.
    assert (U2 : u32 (rc + i) = rc + i) by (apply u32_small; lia). rewrite U2 in Ck3.
    rewrite U1. replace (u32 (i - lc)) with (i - lc) by (symmetry; apply u32_small; lia).
    replace (u32 (i + rc)) with (i + rc) by (symmetry; apply u32_small; lia).
    replace (u32 (i - (i - lc) + 1)) with (lc + 1) by (replace (i - (i - lc) + 1) with (lc + 1) by lia; symmetry; apply u32_small; lia).
    replace (u32 (i + rc - (i + 1) + 1)) with rc by (replace (i + rc - (i + 1) + 1) with rc by lia; symmetry; apply u32_small; lia).
    destruct (range_ok data (i - lc) (i + 1)) as (rb & -> & Lb & Ib & Ab); [lia|fold n; lia|]. cbn [bind].
    destruct (range_ok data (i + 1) (i + rc + 1)) as (rw & -> & Lw & Iw & Aw); [lia|fold n; lia|]. cbn [bind].
    eexists. split; [reflexivity|]. rewrite Ck1. intros Ec _ _. split; [lia|]. split; [fold n; lia|]. intros Q1 Q2.
    match type of Ec with (if ?c0 then _ else _) = _ => destruct c0 eqn:Le; [|discriminate] end.
    assert (Wb : within B rb).
    { apply Forall_forall. intros v Hv. destruct (Ib v Hv) as (k & Hk & ->).
      exact (Forall_at _ data k Hd ltac:(fold n; lia)). }
    assert (Ww : within B rw).
    { apply Forall_forall. intros v Hv. destruct (Iw v Hv) as (k & Hk & ->).
      exact (Forall_at _ data k Hd ltac:(fold n; lia)). }
    assert (B0 : B = 0 \/ 1 <= B) by lia.
    destruct (accumulate_ok B rb HB Wb) as (A1 & A2); [rewrite Lb; lia|].
    destruct (accumulate_ok B rw HB Ww) as (A3 & A4); [rewrite Lw; lia|].
    rewrite Lb in A1, A2. rewrite Lw in A3, A4.
    replace (i + 1 - (i - lc)) with (lc + 1) in * by lia. replace (i + rc + 1 - (i + 1)) with rc in * by lia.
    rewrite (zsum_ext _ _ (fun t => at_z data (i - lc + t)) Ab) in A1, A2.
    rewrite (zsum_ext _ _ (fun t => at_z data (i + 1 + t)) Aw) in A3, A4.
    destruct B0 as [B0|B0].
    - (* all values are 0 *)
      assert (Z1 : zsum rc (fun t => at_z data (i + 1 + t)) = 0) by lia.
      assert (Z2 : zsum (lc + 1) (fun t => at_z data (i - lc + t)) = 0) by lia.
      assert (Zq : at_z data q - at_z data p = 0) by lia.
      rewrite Z1, Z2. unfold Rdiv. rewrite !Rmult_0_l, Rminus_0_r.
      assert (IZR minC <= 0)%R by (apply IZR_le; lia). pose proof (bpow_ge_0 radix2 (-20)). lra.
    - eapply side_test; [exact A3|exact A1|lia|lia|nia|nia|lia|exact Le]. }
  cbn [bind]. destruct c; [eexists; split; [reflexivity|discriminate]|]. specialize (CS eq_refl).
  assert (L2 : Z.of_nat (length (D2 data)) = n) by (rewrite D2_length by lia; reflexivity).
  rewrite vnth_ok by lia. cbn [bind]. rewrite U1, vnth_ok by lia. cbn [bind].
  unfold pt. set (a := at_z (D2 data) i) in *. set (b := at_z (D2 data) (i + 1)) in *.
  destruct (a =? b) eqn:Eab.
  - eexists. split; [reflexivity|]. intros v E. inversion E. auto.
  - pose proof (Forall_at _ (D2 data) i (D2_within B data HB Hd) ltac:(lia)) as Wa.
    pose proof (Forall_at _ (D2 data) (i + 1) (D2_within B data HB Hd) ltac:(lia)) as Wb.
    cbv beta in Wa, Wb. fold a in Wa. fold b in Wb.
    rewrite int32_ok by lia. cbn [bind]. eexists. split; [reflexivity|]. intros v E. inversion E. auto.
Qed.

(** ** The loop over the positions *)

(** A point reported for the profile [d]. *)
Definition is_edge (T : ftype) (d : list Z) (B lc rc c : Z) (v : num) : Prop :=
  exists i, 1 <= i <= Z.of_nat (length d) - 3 /\
    at_z (D2 d) i >= 0 /\ at_z (D2 d) (i + 1) <= 0 /\ at_z (D1 d) i > 0 /\
    v = pt T i (at_z (D2 d) i) (at_z (D2 d) (i + 1)) /\ contrast d i c /\ sides d B i lc rc c.

(** What the parameters must satisfy for scan lines of [n] values. *)
Definition fits (P : EdgeParameter) (n : Z) : Prop :=
  4 <= n /\ n < W32 /\ 0 <= ep_left P < W32 /\ 0 <= ep_right P /\ ep_right P + n <= W32.

Lemma edge_at_ok T data B P minC i edge :
  let n := Z.of_nat (length data) in
  0 <= B -> 4 * B < 2147483648 -> within B data -> fits P n -> Z.abs minC <= 2 ^ 32 -> 1 <= i <= n - 3 ->
  exists o, edge_at T data (D1 data) (D2 data) P minC i edge = Ok (edge ++ o) /\
    (o = [] \/ exists v, o = [v] /\ is_edge T data B (ep_left P) (ep_right P) minC v).
Proof.
  intros n HB H4 Hd (Hn4 & Hn & Hlc & Hrc & Hrn) HmC Hi.
  assert (NO : forall r : res mem (list num), r = Ok edge -> exists o, r = Ok (edge ++ o) /\
     (o = [] \/ exists v, o = [v] /\ is_edge T data B (ep_left P) (ep_right P) minC v)).
  { intros r ->. exists []. rewrite app_nil_r. auto. }
  assert (L1 : Z.of_nat (length (D1 data)) = n) by (rewrite D1_length by lia; reflexivity).
  assert (L2 : Z.of_nat (length (D2 data)) = n) by (rewrite D2_length by lia; reflexivity).
  assert (U1 : u32 (i + 1) = i + 1) by (apply u32_small; lia).
  assert (U2 : u32 (n - 1) = n - 1) by (apply u32_small; lia).
  unfold edge_at. fold n. rewrite vnth_ok by lia. cbn [bind].
  destruct (Z.ltb_spec (at_z (D2 data) i) 0) as [|S0]; [apply NO; reflexivity|].
  rewrite U1, U2, vnth_ok by lia. cbn [bind].
  destruct (Z.ltb_spec 0 (at_z (D2 data) (i + 1))) as [|S1]; [apply NO; reflexivity|].
  rewrite !vnth_ok by lia. cbn [bind].
  set (mg := if at_z (D1 data) (i + 1) <? at_z (D1 data) i then _ else _).
  destruct (Z.leb_spec mg 0) as [|MG]; [apply NO; reflexivity|].
  assert (G : at_z (D1 data) i > 0).
  { pose proof (D2_at data (i + 1) ltac:(fold n; lia)) as E. replace (i + 1 - 1) with i in E by lia.
    unfold mg in MG. destruct (Z.ltb_spec (at_z (D1 data) (i + 1)) (at_z (D1 data) i)); lia. }
  set (mn := if mg <? 3 then 1 else _). set (hf := if mg <? 2 then 1 else _).
  assert (Hmn : 1 <= mn) by (unfold mn; destruct (Z.ltb_spec mg 3); lia).
  destruct (left_scan_ok (D1 data) hf mn mg Hmn (Z.to_nat i) None) as (nl & ml & EL & NL & ML);
    [lia|].
  rewrite EL. cbn [bind].
  destruct (right_scan_ok (D1 data) hf mn mg Hmn (Z.to_nat (n - 1 - (i + 1))) (i + 1) None) as (nr & mr & ER & NR & MR);
    [lia|lia|].
  assert (IE : forall v, v = pt T i (at_z (D2 data) i) (at_z (D2 data) (i + 1)) /\ contrast data i minC /\ sides data B i (ep_left P) (ep_right P) minC ->
                is_edge T data B (ep_left P) (ep_right P) minC v).
  { intros v (Ev & Cv & Sv). exists i. fold n. repeat (split; [lia || assumption|]). assumption. }
  set (chk := (0 <? ep_left P) && (0 <? ep_right P)).
  assert (FP : forall a b (ol or : option Z), (forall x, ol = Some x -> 0 <= x <= i /\ rising (D1 data) x (i + 1)) ->
     (forall x, or = Some x -> i + 1 <= x < n /\ rising (D1 data) i x) -> ol = a -> or = b ->
     exists o, match ol, or with
               | Some x, Some y => findPoint T data (D2 data) x y minC chk (ep_left P) (ep_right P) i n
               | _, _ => Ok None end = Ok o /\ forall v, o = Some v -> is_edge T data B (ep_left P) (ep_right P) minC v).
  { intros a b [x|] [z|] H1 H2 _ _; try (eexists; split; [reflexivity|discriminate]).
    destruct (H1 x eq_refl) as (H1a & H1b). destruct (H2 z eq_refl) as (H2a & H2b).
    destruct (findPoint_ok T data B x z minC chk (ep_left P) (ep_right P) i) as (o & Eo & Ho); fold n; try lia; auto.
    { intros t Ht. destruct (Z_lt_ge_dec t (i + 1)); [apply H1b|apply H2b]; lia. }
    exists o. split; [exact Eo|]. intros v Ev. apply IE. apply Ho. exact Ev. }
  rewrite Z2Nat.id in NL, ML by lia. replace (i + 1 - 1) with i in NR, MR by lia.
  assert (NL' : forall x, nl = Some x -> 0 <= x <= i /\ rising (D1 data) x (i + 1)).
  { intros x Hx. destruct (NL x Hx) as [Q|Q]; [discriminate|exact Q]. }
  assert (NR' : forall x, nr = Some x -> i + 1 <= x < n /\ rising (D1 data) i x).
  { intros x Hx. destruct (NR x Hx) as [Q|(Q1 & Q2)]; [discriminate|split; [lia|exact Q2]]. }
  assert (MR' : forall x, mr = Some x -> i + 1 <= x < n /\ rising (D1 data) i x).
  { intros x Hx. destruct (MR x Hx) as (Q1 & Q2). split; [lia|exact Q2]. }
  assert (MAIN : exists o,
    (do r <- right_scan (D1 data) hf mn mg (Z.to_nat (n - 1 - (i + 1))) (i + 1) None;
     let (normalRight, minimumRight) := r in
     do p <- match nl, normalRight with
             | Some a, Some b => findPoint T data (D2 data) a b minC chk (ep_left P) (ep_right P) i n
             | _, _ => Ok None end;
     match p with
     | Some e => Ok (edge ++ [e])
     | None =>
         do p0 <- match ml, minimumRight with
                  | Some a, Some b => findPoint T data (D2 data) a b minC chk (ep_left P) (ep_right P) i n
                  | _, _ => Ok None end;
         Ok match p0 with Some e => edge ++ [e] | None => edge end
     end) = Ok (edge ++ o) /\ (o = [] \/ exists v, o = [v] /\ is_edge T data B (ep_left P) (ep_right P) minC v)).
  { rewrite ER. cbn [bind].
    destruct (FP nl nr nl nr NL' NR' eq_refl eq_refl) as (o & -> & Ho). cbn [bind].
    destruct o as [e|].
    - exists [e]. split; [reflexivity|]. right. exists e. auto.
    - destruct (FP ml mr ml mr ML MR' eq_refl eq_refl) as (o & -> & Ho'). cbn [bind].
      destruct o as [e|].
      + exists [e]. split; [reflexivity|]. right. exists e. auto.
      + apply NO. reflexivity. }
  clear -NO MAIN. destruct nl; [exact MAIN|]. destruct ml; [exact MAIN|]. apply NO. reflexivity.
Qed.

Lemma getEdgePoints_ok T data B P :
  let n := Z.of_nat (length data) in
  0 <= B -> 4 * B < 2147483648 -> within B data -> fits P n ->
  exists l, getEdgePoints T data (D1 data) (D2 data) P = Ok l /\
    Forall (is_edge T data B (ep_left P) (ep_right P) (s32 (u32 (ep_contrast P * ep_group P)))) l.
Proof.
  intros n HB H4 Hd Hf. pose proof Hf as (Hn4 & Hn & Hlc & Hrc & Hrn).
  unfold getEdgePoints. fold n. set (c := s32 _).
  assert (U : u32 (n - 2) = n - 2) by (apply u32_small; lia). rewrite U.
  destruct (loop_rule (fun s : Z * list num => 1 <= fst s <= n - 2 /\ Forall (is_edge T data B (ep_left P) (ep_right P) c) (snd s))
              (fun s => n - fst s) (fun s => fst s <? n - 2)
              (fun s => do e <- edge_at T data (D1 data) (D2 data) P c (fst s) (snd s); Ok (u32 (fst s + 1), e)))
    with (fuel := fuel_of n) (s := (1, @nil num)) as (s' & E & (I1 & I2) & _).
  - intros s (I1 & _). lia.
  - intros [i l] (I1 & I2) Hc. cbn [fst snd] in *. apply Z.ltb_lt in Hc.
    destruct (edge_at_ok T data B P c i l) as (o & Eo & Ho); fold n; auto; try lia; [unfold c, s32; pose proof (u32_range (ep_contrast P * ep_group P)); destruct (_ <? _); unfold W32 in *; lia|].
    rewrite Eo. cbn [bind]. eexists. split; [reflexivity|]. cbn [fst snd].
    rewrite u32_small by lia. split; [split; [lia|]|lia].
    apply Forall_app. split; [exact I2|]. destruct Ho as [-> | (v & -> & Hv)]; auto.
  - cbn [fst snd]. split; [lia|constructor].
  - cbn [fst]. unfold fuel_of. lia.
  - rewrite E. cbn [bind]. exists (snd s'). auto.
Qed.
