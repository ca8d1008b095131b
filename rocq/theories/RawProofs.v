(** Proofs about raw image files. *)
From Coq Require Import ZArith List Bool Lia.
From Verif Require Import Base Image Spec BaseProofs ImgFun ImgLemmas Container ContainerProofs File FileProofs FileSave.
Import ListNotations.
Open Scope Z_scope.
Ltac Zify.zify_post_hook ::= Z.div_mod_to_equations.

Lemma nth_le_bytes n : forall v k, (k < n)%nat -> nth k (le_bytes n v) 0 = byte_of v (Z.of_nat k).
Proof.
  induction n as [|n IH]; intros v k Hk; [lia|]. cbn [le_bytes]. destruct k as [|k].
  - unfold byte_of. cbn [nth]. change (256 ^ Z.of_nat 0) with 1. rewrite Z.div_1_r. reflexivity.
  - cbn [nth]. rewrite IH by lia. unfold byte_of. rewrite Nat2Z.inj_succ, Z.pow_succ_r by lia.
    rewrite Z.div_div by (try apply Z.pow_pos_nonneg; lia). reflexivity.
Qed.

Lemma le_bytes_length n : forall v, length (le_bytes n v) = n.
Proof. induction n; intros; cbn [le_bytes length]; auto. Qed.

Lemma le_value g o n v : 0 <= v < 256 ^ Z.of_nat n -> (forall k, 0 <= k < Z.of_nat n -> g (o + k) = byte_of v k) ->
  le g o n = v.
Proof. intros Hv Hg. apply le_field; auto. intros k Hk. rewrite Hg by lia. symmetry. apply nth_le_bytes. exact Hk. Qed.

Lemma le_ext g g' n : forall o o', (forall k, 0 <= k < Z.of_nat n -> g (o + k) = g' (o' + k)) -> le g o n = le g' o' n.
Proof.
  induction n as [|n IH]; intros o o' H; cbn [le]; auto.
  rewrite (IH (o + 1) (o' + 1)).
  - specialize (H 0 ltac:(lia)). rewrite !Z.add_0_r in H. rewrite H. reflexivity.
  - intros k Hk. rewrite <- !Z.add_assoc. apply H. lia.
Qed.

Lemma le_byte g n : forall o k, 0 <= k < Z.of_nat n -> (forall i, 0 <= i < Z.of_nat n -> 0 <= g (o + i) < 256) ->
  byte_of (le g o n) k = g (o + k).
Proof.
  induction n as [|n IH]; intros o k Hk Hg; [lia|]. cbn [le].
  pose proof (Hg 0 ltac:(lia)) as H0. rewrite Z.add_0_r in H0.
  destruct (Z.eq_dec k 0) as [->|Nk].
  - unfold byte_of. rewrite Z.pow_0_r, Z.div_1_r, Z.add_0_r. rewrite Z.mul_comm, Z_mod_plus_full. apply Z.mod_small. exact H0.
  - specialize (IH (o + 1) (k - 1) ltac:(lia)). unfold byte_of in *.
    replace (256 ^ k) with (256 * 256 ^ (k - 1)).
    2:{ rewrite <- Z.pow_succ_r by lia. f_equal. lia. }
    rewrite <- Z.div_div by (try apply Z.pow_pos_nonneg; lia).
    replace ((g o + 256 * le g (o + 1) n) / 256) with (le g (o + 1) n).
    2:{ rewrite Z.mul_comm, Z_div_plus_full by lia. rewrite (Z.div_small (g o)) by lia. lia. }
    rewrite IH.
    + f_equal. lia.
    + intros i Hi. rewrite <- Z.add_assoc. apply Hg. lia.
Qed.

Lemma le_bound g n : forall o, (forall i, 0 <= i < Z.of_nat n -> 0 <= g (o + i) < 256) -> 0 <= le g o n < 256 ^ Z.of_nat n.
Proof.
  induction n as [|n IH]; intros o Hg; cbn [le].
  - change (256 ^ Z.of_nat 0) with 1. lia.
  - rewrite Nat2Z.inj_succ, Z.pow_succ_r by lia. pose proof (Hg 0 ltac:(lia)) as H0. rewrite Z.add_0_r in H0.
    specialize (IH (o + 1)). assert (0 <= le g (o + 1) n < 256 ^ Z.of_nat n).
    { apply IH. intros i Hi. rewrite <- Z.add_assoc. apply Hg. lia. }
    lia.
Qed.

Lemma value_bytes n v v' : 0 <= v < 256 ^ Z.of_nat n -> 0 <= v' < 256 ^ Z.of_nat n ->
  (forall k, 0 <= k < Z.of_nat n -> byte_of v k = byte_of v' k) -> v = v'.
Proof.
  intros Hv Hv' H. rewrite <- (le_value (byte_of v) 0 n v) by auto. rewrite <- (le_value (byte_of v') 0 n v') by auto.
  apply le_ext. intros k Hk. rewrite !Z.add_0_l. apply H. exact Hk.
Qed.

Lemma byte_range v k : 0 <= byte_of v k < 256.
Proof. unfold byte_of. apply Z.mod_pos_bound. lia. Qed.

(** ** Swapping bytes *)

Lemma nth_put (l : list Z) i v k : (i < length l)%nat ->
  nth k (firstn i l ++ v :: skipn (S i) l) 0 = if (k =? i)%nat then v else nth k l 0.
Proof.
  revert i k. induction l as [|a l IH]; intros i k Hi; [cbn [length] in Hi; lia|].
  destruct i as [|i]; destruct k as [|k]; try reflexivity.
  cbn [firstn app nth Nat.eqb]. cbn [length] in Hi. rewrite <- (IH i k) by lia. reflexivity.
Qed.

Lemma put_length (l : list Z) i v : (i < length l)%nat -> length (firstn i l ++ v :: skipn (S i) l) = length l.
Proof. intros. rewrite app_length, firstn_length. cbn [length]. rewrite skipn_length. lia. Qed.

Lemma swap_ends_nth n : forall fuel left right l, length l = n -> (left + right = n - 1)%nat -> (right < n)%nat -> (right <= left + fuel)%nat ->
  length (swap_ends fuel left right l) = n /\
  forall k, (k < n)%nat -> nth k (swap_ends fuel left right l) 0 =
    if ((left <=? k) && (k <=? right))%nat then nth (n - 1 - k) l 0 else nth k l 0.
Proof.
  induction fuel as [|fuel IH]; intros left right l Hl Hs Hr Hf; cbn [swap_ends].
  - split; [exact Hl|]. intros k Hk. destruct (Nat.leb_spec left k), (Nat.leb_spec k right); cbn [andb]; auto. f_equal. lia.
  - destruct (Nat.ltb_spec left right) as [Hlt|Hge].
    + set (a := nth left l 0). set (b := nth right l 0).
      set (l1 := firstn left l ++ b :: skipn (S left) l).
      assert (L1 : length l1 = n) by (unfold l1; rewrite put_length; lia).
      set (l2 := firstn right l1 ++ a :: skipn (S right) l1).
      assert (L2 : length l2 = n) by (unfold l2; rewrite put_length; lia).
      destruct (IH (S left) (pred right) l2) as [A B]; try lia.
      split; [exact A|]. intros k Hk. rewrite B by exact Hk.
      assert (G : forall k, nth k l2 0 = if (k =? right)%nat then a else if (k =? left)%nat then b else nth k l 0).
      { intros j. unfold l2. rewrite nth_put by lia. destruct (j =? right)%nat; auto. unfold l1. apply nth_put. lia. }
      rewrite !G.
      destruct (Nat.leb_spec (S left) k), (Nat.leb_spec k (pred right)), (Nat.leb_spec left k), (Nat.leb_spec k right),
        (Nat.eqb_spec (n - 1 - k) right), (Nat.eqb_spec (n - 1 - k) left), (Nat.eqb_spec k right), (Nat.eqb_spec k left);
        cbn [andb]; try lia; auto; unfold a, b; f_equal; lia.
    + split; [exact Hl|]. intros k Hk. destruct (Nat.leb_spec left k), (Nat.leb_spec k right); cbn [andb]; auto. f_equal. lia.
Qed.

Lemma swap_value_ok sz v : 0 < sz ->
  0 <= swap_value sz v < 256 ^ sz /\ forall k, 0 <= k < sz -> byte_of (swap_value sz v) k = byte_of v (sz - 1 - k).
Proof.
  intros Hsz. unfold swap_value. set (n := Z.to_nat sz). set (l := swap_ends n 0 (pred n) (le_bytes n v)).
  assert (Hn : Z.of_nat n = sz) by (unfold n; lia).
  destruct (swap_ends_nth n n 0 (pred n) (le_bytes n v)) as [L G]; try (rewrite le_bytes_length; lia); try lia.
  fold l in L, G.
  assert (G' : forall k, 0 <= k < sz -> nth (Z.to_nat k) l 0 = byte_of v (sz - 1 - k)).
  { intros k Hk. rewrite G by lia. rewrite (proj2 (Nat.leb_le 0 (Z.to_nat k))) by lia.
    rewrite (proj2 (Nat.leb_le (Z.to_nat k) (pred n))) by lia. cbn [andb]. rewrite nth_le_bytes by lia. f_equal. lia. }
  assert (R : forall i, 0 <= i < Z.of_nat n -> 0 <= nth (Z.to_nat (0 + i)) l 0 < 256).
  { intros i Hi. rewrite Z.add_0_l, G' by lia. apply byte_range. }
  rewrite <- Hn. split.
  - apply (le_bound (fun i => nth (Z.to_nat i) l 0)). exact R.
  - intros k Hk. rewrite (le_byte (fun i => nth (Z.to_nat i) l 0)) by assumption.
    rewrite Z.add_0_l, Hn. apply G'. lia.
Qed.

Lemma swap_value_twice sz v : 0 < sz -> 0 <= v < 256 ^ sz -> swap_value sz (swap_value sz v) = v.
Proof.
  intros Hsz Hv. destruct (swap_value_ok sz v Hsz) as [A B]. destruct (swap_value_ok sz (swap_value sz v) Hsz) as [C D].
  apply (value_bytes (Z.to_nat sz)); rewrite ?Z2Nat.id by lia; auto.
  intros k Hk. rewrite D, B by lia. f_equal. lia.
Qed.

Lemma swap_one v : 0 <= v < 256 -> swap_value 1 v = v.
Proof.
  intros Hv. destruct (swap_value_ok 1 v ltac:(lia)) as [A B].
  apply (value_bytes 1); change (256 ^ Z.of_nat 1) with (256 ^ 1); auto. intros k Hk. rewrite B by lia. f_equal. lia.
Qed.

Lemma BigEndian_ok sz m im : wf m im -> 0 < sz ->
  (sz = 1 -> forall k, 0 <= k < ih im * irs im -> 0 <= get m (padd (ibase im) k) < 256) ->
  exists m', LittleEndianToBigEndian sz m im = Ok m' /\ same_len m m' /\
    (forall k, 0 <= k < ih im * irs im -> get m' (padd (ibase im) k) = swap_value sz (get m (padd (ibase im) k))) /\
    (forall q, (forall k, 0 <= k < ih im * irs im -> q <> padd (ibase im) k) -> get m' q = get m q).
Proof.
  intros Hwf Hsz Hv. unfold LittleEndianToBigEndian.
  assert (V : valid_image im = true).
  { unfold valid_image. rewrite (wf_not_empty _ _ Hwf), (color_ok _ _ Hwf). reflexivity. }
  rewrite V. destruct (Z.ltb_spec sz 2).
  { exists m. split; [reflexivity|]. split; [apply same_len_refl|]. split; [|auto].
    assert (sz = 1) by lia. subst. intros k Hk. symmetry. apply swap_one. apply Hv; auto. }
  replace (dataptr im) with (ibase im).
  2:{ unfold dataptr, ibase. destruct (idata im) eqn:E; auto. destruct (wf_data _ _ Hwf E). }
  pose proof (wf_size _ _ Hwf) as Hs. pose proof (wf_rs_pos _ _ Hwf) as Hrs. pose proof (wf_h _ _ Hwf) as Hh.
  pose proof (wf_lo _ _ Hwf) as Hlo. pose proof (wf_hi _ _ Hwf) as Hhi.
  replace (irs im * ih im) with (ih im * irs im) by lia.
  set (n := ih im * irs im) in *. assert (0 <= n) by (unfold n; nia). clearbody n.
  rewrite (u32_small n) by lia.
  rewrite (walk_iterM n); [|lia|lia|rewrite Z.mul_1_r; reflexivity|reflexivity].
  set (P := fun j mm => same_len m mm /\
    (forall k, 0 <= k < j -> get mm (padd (ibase im) k) = swap_value sz (get m (padd (ibase im) k))) /\
    (forall q, (forall k, 0 <= k < j -> q <> padd (ibase im) k) -> get mm q = get m q)).
  match goal with |- context [iterM ?n 0 ?g ?s] => destruct (iterM_inv P g n 0 s) as (mm & -> & Q) end.
  - split; [apply same_len_refl|]. split; [lia|auto].
  - intros j mm Hj (L & G & F). unfold c0, at_; cbn [combine map nth fst snd]. rewrite Z.mul_1_r.
    rewrite Z2Nat.id in Hj by lia.
    assert (I : inb mm (padd (ibase im) j) = true).
    { apply inb_iff. unfold padd; cbn [fst snd]. rewrite L. lia. }
    rewrite load_ok by exact I. cbn [bind]. rewrite store_ok by exact I. eexists. split; [reflexivity|].
    split; [intros b; rewrite len_upd; apply L|]. split.
    + intros k Hk. rewrite get_upd. destruct (ptr_eqb_spec (padd (ibase im) k) (padd (ibase im) j)) as [E|E].
      * apply padd_inj in E. subst k. f_equal. apply F. intros k Hk' E. apply padd_inj in E. lia.
      * apply G. destruct (Z.eq_dec k j); [congruence|lia].
    + intros q Hq. rewrite get_upd_other by (apply Hq; lia). apply F. intros k Hk. apply Hq. lia.
  - rewrite Z2Nat.id in Q by lia. destruct Q as (L & G & F). exists mm. auto.
Qed.
