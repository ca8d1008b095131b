(** Proofs about the memory allocator. *)
From Coq Require Import ZArith List Bool Lia Sorted.
From Verif Require Import Base BaseProofs Alloc.
Import ListNotations.
Open Scope Z_scope.
Ltac Zify.zify_post_hook ::= Z.div_mod_to_equations.

(** ** Sets *)
Definition srt (l : list Z) : Prop := StronglySorted Z.lt l.
Lemma srt_cons x l : srt (x :: l) <-> srt l /\ forall y, In y l -> x < y.
Proof.
  unfold srt. split.
  - intros H. inversion H as [|? ? H1 H2]; subst. rewrite Forall_forall in H2. auto.
  - intros [H1 H2]. constructor; [exact H1|]. apply Forall_forall. exact H2.
Qed.
Lemma In_sinsert x o l : In x (sinsert o l) <-> x = o \/ In x l.
Proof.
  induction l as [|y t IH]; cbn [sinsert]; [cbn; intuition|].
  destruct (Z.ltb_spec o y); [cbn; intuition|]. destruct (Z.eqb_spec o y) as [->|N].
  - cbn. intuition.
  - cbn [In]. rewrite IH. intuition.
Qed.
Lemma srt_sinsert o l : srt l -> srt (sinsert o l).
Proof.
  induction l as [|y t IH]; intros H; cbn [sinsert].
  - apply srt_cons. split; [constructor|cbn; tauto].
  - destruct (Z.ltb_spec o y).
    + apply srt_cons. split; [exact H|]. intros z [->|Hz]; [lia|]. apply srt_cons in H as [_ H]. specialize (H z Hz). lia.
    + destruct (Z.eqb_spec o y); [exact H|]. apply srt_cons in H as [H1 H2]. apply srt_cons. split; [auto|].
      intros z Hz. apply In_sinsert in Hz as [->|Hz]; [lia|auto].
Qed.
Lemma In_serase x o l : srt l -> (In x (serase o l) <-> In x l /\ x <> o).
Proof.
  induction l as [|y t IH]; intros H; cbn [serase]; [cbn; tauto|]. apply srt_cons in H as [H1 H2].
  destruct (Z.eqb_spec y o) as [->|N].
  - cbn [In]. split; [intros Hx; specialize (H2 x Hx); split; [auto|lia]|intros [[->|Hx] Hn]; [lia|exact Hx]].
  - cbn [In]. rewrite (IH H1). intuition congruence.
Qed.
Lemma srt_serase o l : srt l -> srt (serase o l).
Proof.
  induction l as [|y t IH]; intros H; cbn [serase]; [constructor|]. pose proof H as H0. apply srt_cons in H as [H1 H2].
  destruct (Z.eqb_spec y o) as [->|N]; [exact H1|]. apply srt_cons. split; [auto|].
  intros z Hz. apply In_serase in Hz as [Hz _]; auto.
Qed.
Lemma smem_In o l : smem o l = true <-> In o l.
Proof.
  induction l as [|y t IH]; cbn; [split; [discriminate|tauto]|]. rewrite orb_true_iff, IH, Z.eqb_eq. tauto.
Qed.
Lemma snext_spec o l q : srt l -> snext o l = Some q -> In o l /\ In q l /\ o < q.
Proof.
  induction l as [|y t IH]; intros H Hs; cbn [snext] in Hs; [discriminate|]. apply srt_cons in H as [H1 H2].
  destruct (Z.eqb_spec y o) as [->|N].
  - destruct t as [|z t]; [discriminate|]. injection Hs as ->. cbn. split; [auto|]. split; [auto|]. apply H2. cbn. auto.
  - destruct (IH H1 Hs) as (A & B & C). cbn. auto.
Qed.
Lemma snext_adj o l d : srt l -> In o l -> In (o + d) l -> 0 < d -> (forall x, In x l -> ~ (o < x < o + d)) ->
  snext o l = Some (o + d).
Proof.
  induction l as [|y t IH]; intros H Ho Hd Hp Hb; [contradiction|]. apply srt_cons in H as [H1 H2]. cbn [snext].
  destruct (Z.eqb_spec y o) as [->|N].
  - destruct t as [|z t]; [destruct Hd as [Hd|[]]; lia|]. f_equal.
    destruct Hd as [Hd|Hd]; [lia|]. destruct Hd as [Hd|Hd]; [auto|].
    apply srt_cons in H1 as [_ H3]. specialize (H3 _ Hd). specialize (H2 z (or_introl eq_refl)).
    exfalso. apply (Hb z); [cbn; auto|lia].
  - destruct Ho as [Ho|Ho]; [contradiction|]. destruct Hd as [Hd|Hd]; [specialize (H2 o Ho); lia|].
    apply IH; auto. intros x Hx. apply Hb. right. exact Hx.
Qed.
Lemma sprev_spec o l p : srt l -> sprev o l = Some p -> In p l /\ In o l /\ p < o.
Proof.
  induction l as [|x t IH]; intros H Hs; [discriminate|]. apply srt_cons in H as [H1 H2].
  destruct t as [|y t]; [discriminate|]. cbn [sprev] in Hs. fold (sprev o (y :: t)) in Hs.
  destruct (Z.eqb_spec y o) as [->|N].
  - injection Hs as ->. split; [cbn; auto|]. split; [cbn; auto|]. apply H2. cbn. auto.
  - destruct (IH H1 Hs) as (A & B & C). split; [right; exact A|]. split; [right; exact B|exact C].
Qed.
Lemma sprev_adj o l d : srt l -> In o l -> In (o - d) l -> 0 < d -> (forall x, In x l -> ~ (o - d < x < o)) ->
  sprev o l = Some (o - d).
Proof.
  induction l as [|x t IH]; intros H Ho Hd Hp Hb; [contradiction|]. apply srt_cons in H as [H1 H2].
  destruct t as [|y t]; [cbn in *; lia|]. cbn [sprev]. fold (sprev o (y :: t)).
  assert (Hy : x < y) by (apply H2; cbn; auto).
  destruct (Z.eqb_spec y o) as [->|N].
  - f_equal. destruct Hd as [Hd|[Hd|Hd]]; [auto|lia|]. apply srt_cons in H1 as [_ H3]. specialize (H3 _ Hd). lia.
  - assert (Ho' : In o (y :: t)).
    { destruct Ho as [->|Ho]; [|exact Ho]. destruct Hd as [Hd|Hd]; [lia|]. specialize (H2 _ Hd). lia. }
    destruct Hd as [Hd|Hd].
    + exfalso. apply (Hb y); [cbn; auto|]. destruct Ho' as [Ho'|Ho']; [congruence|].
      apply srt_cons in H1 as [_ H3]. specialize (H3 _ Ho'). lia.
    + apply IH; auto. intros z Hz. apply Hb. right. exact Hz.
Qed.
Lemma sinsert_head o l : srt (o :: l) -> sinsert o l = o :: l.
Proof.
  intros H. apply srt_cons in H as [_ H]. destruct l as [|x t]; [reflexivity|]. cbn [sinsert].
  specialize (H x (or_introl eq_refl)). destruct (Z.ltb_spec o x); [reflexivity|lia].
Qed.

(** ** Levels *)
Lemma len_setl fc : forall i l, length (setl fc i l) = length fc.
Proof. induction fc as [|x t IH]; intros [|i] l; cbn; auto. Qed.
Lemma level_setl fc : forall i j l, level (setl fc i l) j =
  if (j =? i)%nat then (if (i <? length fc)%nat then l else []) else level fc j.
Proof.
  unfold level. induction fc as [|x t IH]; intros i j l.
  - cbn [setl]. cbn [length]. destruct j, i; cbn; try reflexivity. destruct (j =? i)%nat; reflexivity.
  - destruct i as [|i], j as [|j]; cbn [setl nth length Nat.eqb]; try reflexivity.
    rewrite IH. replace (S i <? S (length t))%nat with (i <? length t)%nat; [reflexivity|].
    destruct (Nat.ltb_spec i (length t)), (Nat.ltb_spec (S i) (S (length t))); try reflexivity; lia.
Qed.
Lemma level_setl_same fc i l : (i < length fc)%nat -> level (setl fc i l) i = l.
Proof. intros H. rewrite level_setl, Nat.eqb_refl. destruct (Nat.ltb_spec i (length fc)); [reflexivity|lia]. Qed.
Lemma level_setl_other fc i j l : i <> j -> level (setl fc i l) j = level fc j.
Proof. intros H. rewrite level_setl. destruct (Nat.eqb_spec j i); [congruence|reflexivity]. Qed.
Lemma level_out fc i : (length fc <= i)%nat -> level fc i = [].
Proof. intros H. apply nth_overflow. exact H. Qed.
Lemma fc_ext fc fc' : length fc = length fc' -> (forall i, level fc i = level fc' i) -> fc = fc'.
Proof.
  intros Hl H. apply (nth_ext fc fc' [] [] Hl). intros n Hn. apply H.
Qed.

(** ** Additive measures of the chunks *)
Definition additive (f : Z -> nat -> Z) : Prop := forall o L, f o (S L) = f o L + f (o + 2 ^ Z.of_nat L) L.
Fixpoint totL (f : Z -> nat -> Z) (L : nat) (l : list Z) : Z :=
  match l with [] => 0 | o :: t => f o L + totL f L t end.
Fixpoint totF (f : Z -> nat -> Z) (i : nat) (fc : list (list Z)) : Z :=
  match fc with [] => 0 | l :: t => totL f i l + totF f (S i) t end.
Fixpoint totA (f : Z -> nat -> Z) (l : list (Z * nat)) : Z :=
  match l with [] => 0 | (o, L) :: t => f o L + totA f t end.

Lemma totL_sinsert f L o l : ~ In o l -> totL f L (sinsert o l) = totL f L l + f o L.
Proof.
  induction l as [|x t IH]; intros H; cbn [sinsert totL]; [lia|].
  destruct (Z.ltb_spec o x); [cbn [totL]; lia|]. destruct (Z.eqb_spec o x) as [->|N]; [cbn in H; tauto|].
  cbn [totL]. rewrite IH; [lia|]. cbn in H. tauto.
Qed.
Lemma totL_serase f L o l : In o l -> totL f L (serase o l) = totL f L l - f o L.
Proof.
  induction l as [|x t IH]; intros H; [contradiction|]. cbn [serase totL].
  destruct (Z.eqb_spec x o) as [->|N]; [lia|]. cbn [totL]. rewrite IH; [lia|]. destruct H; [contradiction|assumption].
Qed.
Lemma totF_setl f : forall fc i j l, (i < length fc)%nat ->
  totF f j (setl fc i l) = totF f j fc - totL f (j + i) (level fc i) + totL f (j + i) l.
Proof.
  induction fc as [|x t IH]; intros i j l H; [cbn in H; lia|].
  destruct i as [|i]; cbn [setl totF].
  - rewrite Nat.add_0_r. unfold level. cbn [nth]. lia.
  - rewrite IH by (cbn in H; lia). replace (S j + i)%nat with (j + S i)%nat by lia. unfold level. cbn [nth]. lia.
Qed.
Lemma totF_set0 f fc i l : (i < length fc)%nat ->
  totF f 0 (setl fc i l) = totF f 0 fc - totL f i (level fc i) + totL f i l.
Proof. intros H. apply (totF_setl f fc i 0 l H). Qed.
Lemma totL_nonneg f L l : (forall o L, 0 <= f o L) -> 0 <= totL f L l.
Proof. intros H. induction l as [|x t IH]; cbn [totL]; [lia|]. specialize (H x L). lia. Qed.
Lemma totF_nonneg f : (forall o L, 0 <= f o L) -> forall fc i, 0 <= totF f i fc.
Proof.
  intros H. induction fc as [|x t IH]; intros i; cbn [totF]; [lia|]. pose proof (totL_nonneg f i x H). specialize (IH (S i)). lia.
Qed.
Lemma totA_nonneg f l : (forall o L, 0 <= f o L) -> 0 <= totA f l.
Proof. intros H. induction l as [|[o L] t IH]; cbn [totA]; [lia|]. specialize (H o L). lia. Qed.
Lemma totL_le f L : (forall o L, 0 <= f o L) -> forall o l, In o l -> f o L <= totL f L l.
Proof.
  intros H o. induction l as [|x t IH]; intros Hi; [contradiction|]. cbn [totL]. pose proof (totL_nonneg f L t H).
  destruct Hi as [->|Hi]; [lia|]. specialize (IH Hi). specialize (H x L). lia.
Qed.
Lemma totL_le2 f L : (forall o L, 0 <= f o L) -> forall o o' l, In o l -> In o' l -> o <> o' -> f o L + f o' L <= totL f L l.
Proof.
  intros H o o'. induction l as [|x t IH]; intros Hi Hi' N; [contradiction|]. cbn [totL].
  destruct Hi as [->|Hi], Hi' as [->|Hi']; [contradiction| | |].
  - pose proof (totL_le f L H o' t Hi'). lia.
  - pose proof (totL_le f L H o t Hi). lia.
  - specialize (IH Hi Hi' N). specialize (H x L). lia.
Qed.
(** The other levels do not count negatively. *)
Lemma totF_level f fc i : (forall o L, 0 <= f o L) -> totL f i (level fc i) <= totF f 0 fc.
Proof.
  intros H. destruct (Nat.lt_ge_cases i (length fc)) as [Hi|Hi].
  - pose proof (totF_set0 f fc i [] Hi) as E. cbn [totL] in E. pose proof (totF_nonneg f H (setl fc i []) 0). lia.
  - rewrite level_out by lia. cbn. apply totF_nonneg. exact H.
Qed.
Lemma totF_level2 f fc i j : (forall o L, 0 <= f o L) -> i <> j ->
  totL f i (level fc i) + totL f j (level fc j) <= totF f 0 fc.
Proof.
  intros H N. destruct (Nat.lt_ge_cases i (length fc)) as [Hi|Hi].
  - pose proof (totF_set0 f fc i [] Hi) as E. cbn [totL] in E. pose proof (totF_level f (setl fc i []) j H) as G.
    rewrite level_setl_other in G by assumption. lia.
  - rewrite (level_out fc i) by lia. cbn. pose proof (totF_level f fc j H). lia.
Qed.

(** Bytes covered by chunks, and their total size. *)
Definition cov (k : Z) (o : Z) (L : nat) : Z := if (o <=? k) && (k <? o + 2 ^ Z.of_nat L) then 1 else 0.
Definition csize (o : Z) (L : nat) : Z := 2 ^ Z.of_nat L.
Lemma pow_pos L : 0 < 2 ^ Z.of_nat L.
Proof. apply Z.pow_pos_nonneg; lia. Qed.
Lemma pow_S L : 2 ^ Z.of_nat (S L) = 2 * 2 ^ Z.of_nat L.
Proof. rewrite Nat2Z.inj_succ, Z.pow_succ_r by lia. reflexivity. Qed.
Lemma cov_additive k : additive (cov k).
Proof.
  intros o L. unfold cov. rewrite pow_S. pose proof (pow_pos L). set (p := 2 ^ Z.of_nat L) in *. clearbody p.
  repeat match goal with |- context [?a <=? ?b] => destruct (Z.leb_spec a b) | |- context [?a <? ?b] => destruct (Z.ltb_spec a b) end; cbn [andb]; lia.
Qed.
Lemma csize_additive : additive csize.
Proof. intros o L. unfold csize. rewrite pow_S. lia. Qed.
Lemma cov_nonneg k o L : 0 <= cov k o L.
Proof. unfold cov. destruct (_ && _); lia. Qed.
Lemma csize_nonneg o L : 0 <= csize o L.
Proof. unfold csize. pose proof (pow_pos L). lia. Qed.
Lemma cov_in k o L : o <= k < o + 2 ^ Z.of_nat L -> cov k o L = 1.
Proof. intros [H1 H2]. unfold cov. rewrite (proj2 (Z.leb_le _ _) H1), (proj2 (Z.ltb_lt _ _) H2). reflexivity. Qed.

(** The free lists are sets, and no byte is in two chunks. *)
Record fok (fc : list (list Z)) : Prop := mkFok {
  f_srt : forall L, srt (level fc L);
  f_cov : forall k, totF (cov k) 0 fc <= 1
}.
Definition nonadj (fc : list (list Z)) : Prop :=
  forall L o, In o (level fc L) -> ~ In (o + 2 ^ Z.of_nat L) (level fc L).

Lemma fok_between fc L o x : fok fc -> In o (level fc L) -> In x (level fc L) -> ~ (o < x < o + 2 ^ Z.of_nat L).
Proof.
  intros [Hs Hc] Ho Hx H.
  pose proof (totL_le2 (cov x) L (cov_nonneg x) o x _ Ho Hx ltac:(lia)) as E.
  pose proof (totF_level (cov x) fc L (cov_nonneg x)). specialize (Hc x). pose proof (pow_pos L).
  rewrite !cov_in in E by lia. lia.
Qed.
Lemma fok_level2 fc L L' o : fok fc -> In o (level fc L) -> In o (level fc L') -> L = L'.
Proof.
  intros [Hs Hc] Ho Hx. destruct (Nat.eq_dec L L') as [|N]; [assumption|]. exfalso.
  pose proof (totF_level2 (cov o) fc L L' (cov_nonneg o) N) as E. specialize (Hc o).
  pose proof (totL_le (cov o) L (cov_nonneg o) o _ Ho) as E1. pose proof (totL_le (cov o) L' (cov_nonneg o) o _ Hx) as E2.
  pose proof (pow_pos L). pose proof (pow_pos L'). rewrite cov_in in E1, E2 by lia. lia.
Qed.

(** One step of merging: the chunks [p] and [p + 2^lv] become the chunk [p] of the next level. *)
Lemma merge_step fc lv p : fok fc -> In p (level fc lv) -> In (p + 2 ^ Z.of_nat lv) (level fc lv) ->
  (S lv < length fc)%nat ->
  let l := level fc lv in
  let fc1 := setl fc (S lv) (sinsert p (level fc (S lv))) in
  forall l', srt l' -> (forall x, In x l' <-> In x l /\ x <> p /\ x <> p + 2 ^ Z.of_nat lv) ->
  (forall f, totL f lv l' = totL f lv l - f p lv - f (p + 2 ^ Z.of_nat lv) lv) ->
  let fc' := setl fc1 lv l' in
  fok fc' /\ length fc' = length fc /\ In p (level fc' (S lv)) /\
  (forall f, additive f -> totF f 0 fc' = totF f 0 fc) /\
  (forall L, L <> lv -> L <> S lv -> level fc' L = level fc L) /\
  level fc' (S lv) = sinsert p (level fc (S lv)) /\ level fc' lv = l'.
Proof.
  intros Hf Hp Hq Hl l fc1 l' Hs' Hin' Ht' fc'.
  assert (Hn : ~ In p (level fc (S lv))).
  { intros H. pose proof (fok_level2 fc lv (S lv) p Hf Hp H). lia. }
  assert (L1 : length fc1 = length fc) by apply len_setl.
  assert (E1 : level fc1 lv = l) by (unfold fc1; rewrite level_setl_other by lia; reflexivity).
  assert (Htot : forall f, additive f -> totF f 0 fc' = totF f 0 fc).
  { intros f Ha. unfold fc'. rewrite totF_set0 by lia. rewrite E1, Ht'. unfold fc1. rewrite totF_set0 by lia.
    rewrite totL_sinsert by exact Hn. rewrite (Ha p lv). lia. }
  assert (Hlev : level fc' (S lv) = sinsert p (level fc (S lv))).
  { unfold fc'. rewrite level_setl_other by lia. unfold fc1. apply level_setl_same. lia. }
  assert (Hlv : level fc' lv = l') by (unfold fc'; apply level_setl_same; lia).
  assert (Hot : forall L, L <> lv -> L <> S lv -> level fc' L = level fc L).
  { intros L N1 N2. unfold fc'. rewrite level_setl_other by auto. unfold fc1. apply level_setl_other. auto. }
  split; [|split; [unfold fc'; rewrite len_setl; exact L1|split; [|split; [exact Htot|auto]]]].
  - constructor.
    + intros L. destruct (Nat.eq_dec L lv) as [->|N1]; [rewrite Hlv; exact Hs'|].
      destruct (Nat.eq_dec L (S lv)) as [->|N2]; [rewrite Hlev; apply srt_sinsert, (f_srt _ Hf)|].
      rewrite Hot by assumption. apply (f_srt _ Hf).
    + intros k. rewrite Htot by apply cov_additive. apply (f_cov _ Hf).
  - rewrite Hlev. apply In_sinsert. auto.
Qed.

(** Adjacent pairs, but for those the chunk [off] of level [lv] is part of. *)
Definition nonadj_but (lv : nat) (off : Z) (fc : list (list Z)) : Prop :=
  forall L o, In o (level fc L) -> In (o + 2 ^ Z.of_nat L) (level fc L) ->
    L = lv /\ (o = off \/ o + 2 ^ Z.of_nat L = off).

Lemma merge_ok {E} : forall n lv off fc, fok fc -> n = (length fc - lv)%nat -> (lv < length fc)%nat ->
  totF csize 0 fc < 2 ^ Z.of_nat (length fc) -> In off (level fc lv) -> nonadj_but lv off fc ->
  exists fc', @merge E n lv off fc = Ok fc' /\ fok fc' /\ length fc' = length fc /\ nonadj fc' /\
    forall f, additive f -> totF f 0 fc' = totF f 0 fc.
Proof.
  induction n as [|n IH]; intros lv off fc Hf En Hl Hz Hi Hna; [lia|].
  cbn [merge]. rewrite (proj2 (smem_In off (level fc lv)) Hi). cbn [negb].
  set (l := level fc lv) in *. pose proof (f_srt _ Hf lv) as Hs. fold l in Hs.
  (* the level above exists when there is an adjacent pair *)
  assert (Hup : forall p, In p l -> In (p + 2 ^ Z.of_nat lv) l -> (S lv < length fc)%nat).
  { intros p Hp Hq. destruct (Nat.lt_ge_cases (S lv) (length fc)) as [H|H]; [exact H|]. exfalso.
    replace (length fc) with (S lv) in Hz by lia. rewrite pow_S in Hz.
    pose proof (totL_le2 csize lv csize_nonneg p (p + 2 ^ Z.of_nat lv) l Hp Hq ltac:(pose proof (pow_pos lv); lia)).
    pose proof (totF_level csize fc lv csize_nonneg). fold l in H1. unfold csize in H0 at 1 2. lia. }
  assert (Hgo : forall p l', In p l -> In (p + 2 ^ Z.of_nat lv) l -> off = p \/ off = p + 2 ^ Z.of_nat lv ->
    srt l' -> (forall x, In x l' <-> In x l /\ x <> p /\ x <> p + 2 ^ Z.of_nat lv) ->
    (forall f, totL f lv l' = totL f lv l - f p lv - f (p + 2 ^ Z.of_nat lv) lv) ->
    exists fc', (do fc0 <- (if (S lv <? length fc)%nat then Ok (setl fc (S lv) (sinsert p (level fc (S lv)))) else UB);
      @merge E n (S lv) p (setl fc0 lv l')) = Ok fc' /\ fok fc' /\ length fc' = length fc /\ nonadj fc' /\
      forall f, additive f -> totF f 0 fc' = totF f 0 fc).
  { intros p l' Hp Hq Hpo Hs' Hin' Ht'. pose proof (Hup p Hp Hq) as Hul.
    destruct (Nat.ltb_spec (S lv) (length fc)); [|lia]. cbn [bind].
    destruct (merge_step fc lv p Hf Hp Hq Hul l' Hs' Hin' Ht') as (F1 & L1 & I1 & T1 & O1 & U1 & V1).
    set (fc1 := setl (setl fc (S lv) (sinsert p (level fc (S lv)))) lv l') in *.
    destruct (IH (S lv) p fc1 F1) as (fc' & E' & F' & L' & N' & T'); try lia.
    - rewrite T1 by apply csize_additive. rewrite L1. exact Hz.
    - exact I1.
    - intros L o Ho Ho'. destruct (Nat.eq_dec L lv) as [->|N1].
      + rewrite V1 in Ho, Ho'. apply Hin' in Ho as (Ho & Na & Nb). apply Hin' in Ho' as (Ho' & Na' & Nb').
        destruct (Hna lv o Ho Ho') as (_ & Hx). exfalso. destruct Hx as [Hx|Hx], Hpo; lia.
      + destruct (Nat.eq_dec L (S lv)) as [->|N2].
        * split; [reflexivity|]. rewrite U1 in Ho, Ho'. apply In_sinsert in Ho, Ho'.
          destruct Ho as [Ho|Ho]; [auto|]. destruct Ho' as [Ho'|Ho']; [auto|].
          destruct (Hna (S lv) o Ho Ho') as (Hx & _). lia.
        * rewrite O1 in Ho, Ho' by assumption. destruct (Hna L o Ho Ho') as (Hx & _). contradiction.
    - exists fc'. split; [exact E'|]. split; [exact F'|]. split; [congruence|]. split; [exact N'|].
      intros f Ha. rewrite T' by exact Ha. apply T1. exact Ha. }
  assert (Hstop : ~ In (off + 2 ^ Z.of_nat lv) l -> ~ In (off - 2 ^ Z.of_nat lv) l ->
    exists fc', Ok fc = @Ok E _ fc' /\ fok fc' /\ length fc' = length fc /\ nonadj fc' /\
      forall f, additive f -> totF f 0 fc' = totF f 0 fc).
  { intros N1 N2. exists fc. split; [reflexivity|]. split; [exact Hf|]. split; [reflexivity|]. split; [|reflexivity].
    intros L o Ho Ho'. destruct (Hna L o Ho Ho') as (-> & [->|Hx]); [contradiction|]. apply N2.
    replace (off - 2 ^ Z.of_nat lv) with o by lia. exact Ho. }
  pose proof (pow_pos lv) as Hpp.
  assert (Hleft : ~ In (off + 2 ^ Z.of_nat lv) l ->
    exists fc', (match sprev off l with
      | Some p => if off - p =? 2 ^ Z.of_nat lv
          then do fc0 <- (if (S lv <? length fc)%nat then Ok (setl fc (S lv) (sinsert p (level fc (S lv)))) else UB);
               @merge E n (S lv) p (setl fc0 lv (serase off (serase p l)))
          else Ok fc
      | None => Ok fc end) = Ok fc' /\ fok fc' /\ length fc' = length fc /\ nonadj fc' /\
      forall f, additive f -> totF f 0 fc' = totF f 0 fc).
  { intros Nr. destruct (sprev off l) as [p|] eqn:Ep.
    - destruct (sprev_spec off l p Hs Ep) as (Hp & _ & Hlt).
      destruct (Z.eqb_spec (off - p) (2 ^ Z.of_nat lv)) as [Ed|Nd].
      + assert (Eo : off = p + 2 ^ Z.of_nat lv) by lia. apply Hgo; auto.
        * rewrite <- Eo. exact Hi.
        * apply srt_serase, srt_serase, Hs.
        * intros x. rewrite In_serase by (apply srt_serase, Hs). rewrite In_serase by exact Hs. rewrite <- Eo. tauto.
        * intros f. rewrite totL_serase; [|apply In_serase; [exact Hs|split; [exact Hi|lia]]].
          rewrite totL_serase by exact Hp. rewrite <- Eo. lia.
      + apply Hstop; [exact Nr|]. intros Hx.
        rewrite (sprev_adj off l (2 ^ Z.of_nat lv) Hs Hi Hx Hpp) in Ep; [injection Ep as <-; lia|].
        intros x Hxl. pose proof (fok_between fc lv _ x Hf Hx Hxl). lia.
    - apply Hstop; [exact Nr|]. intros Hx.
      rewrite (sprev_adj off l (2 ^ Z.of_nat lv) Hs Hi Hx Hpp) in Ep; [discriminate|].
      intros x Hxl. pose proof (fok_between fc lv _ x Hf Hx Hxl). lia. }
  destruct (snext off l) as [q|] eqn:Eq.
  - destruct (snext_spec off l q Hs Eq) as (_ & Hq & Hlt).
    destruct (Z.eqb_spec (q - off) (2 ^ Z.of_nat lv)) as [Ed|Nd].
    + assert (Eo : q = off + 2 ^ Z.of_nat lv) by lia. apply Hgo; auto.
      * rewrite <- Eo. exact Hq.
      * apply srt_serase, srt_serase, Hs.
      * intros x. rewrite In_serase by (apply srt_serase, Hs). rewrite In_serase by exact Hs. rewrite <- Eo. tauto.
      * intros f. rewrite totL_serase; [|apply In_serase; [exact Hs|split; [exact Hq|lia]]].
        rewrite totL_serase by exact Hi. rewrite <- Eo. lia.
    + apply Hleft. intros Hx.
      rewrite (snext_adj off l (2 ^ Z.of_nat lv) Hs Hi Hx Hpp) in Eq; [injection Eq as <-; lia|].
      intros x Hxl. pose proof (fok_between fc lv off x Hf Hi Hxl). lia.
  - apply Hleft. intros Hx.
    rewrite (snext_adj off l (2 ^ Z.of_nat lv) Hs Hi Hx Hpp) in Eq; [discriminate|].
    intros x Hxl. pose proof (fok_between fc lv off x Hf Hi Hxl). lia.
Qed.

(** ** Splitting *)
Lemma find_level_spec fc : forall n i, (match find_level i n fc with
  | Some s => (i <= s < i + n)%nat /\ level fc s <> [] /\ forall j, (i <= j < s)%nat -> level fc j = []
  | None => forall j, (i <= j < i + n)%nat -> level fc j = [] end).
Proof.
  induction n as [|n IH]; intros i; cbn [find_level]; [intros j Hj; lia|].
  destruct (level fc i) as [|x t] eqn:E.
  - specialize (IH (S i)). destruct (find_level (S i) n fc) as [s|].
    + destruct IH as (H1 & H2 & H3). split; [lia|]. split; [exact H2|]. intros j Hj.
      destruct (Nat.eq_dec j i) as [->|]; [exact E|]. apply H3. lia.
    + intros j Hj. destruct (Nat.eq_dec j i) as [->|]; [exact E|]. apply IH. lia.
  - split; [lia|]. split; [congruence|]. intros j Hj. lia.
Qed.

(** Splitting the first chunk of level [start] down [k] levels; the levels below were
    empty.  Merging from below leads back. *)
Lemma split_down_ok {E E'} : forall k start fc o rest, fok fc -> (start < length fc)%nat -> (k <= start)%nat ->
  level fc start = o :: rest -> (forall j, (start - k <= j < start)%nat -> level fc j = []) ->
  exists fc' rest', @split_down E k start fc = Ok fc' /\ fok fc' /\ length fc' = length fc /\
    level fc' (start - k) = o :: rest' /\
    (forall f, additive f -> totF f 0 fc' = totF f 0 fc) /\
    (forall L p, In p (level fc' L) -> In (p + 2 ^ Z.of_nat L) (level fc' L) ->
       (In p (level fc L) /\ In (p + 2 ^ Z.of_nat L) (level fc L)) \/ (L = start - k /\ p = o)%nat) /\
    @merge E' (length fc - (start - k)) (start - k) o fc' = @merge E' (length fc - start) start o fc.
Proof.
  induction k as [|k IH]; intros start fc o rest Hf Hl Hk Hh He.
  - exists fc, rest. cbn [split_down]. rewrite Nat.sub_0_r. auto 10.
  - cbn [split_down]. rewrite Hh. destruct start as [|lo]; [lia|].
    set (p := 2 ^ Z.of_nat lo). assert (Hpp : 0 < p) by apply pow_pos.
    assert (Hlo : level fc lo = []) by (apply He; lia). rewrite Hlo. cbn [sinsert].
    destruct (Z.ltb_spec (o + p) o); [lia|]. destruct (Z.eqb_spec (o + p) o); [lia|].
    set (fc1 := setl (setl fc lo [o; o + p]) (S lo) rest).
    assert (V1 : level fc1 lo = [o; o + p]).
    { unfold fc1. rewrite level_setl_other by lia. apply level_setl_same. lia. }
    assert (U1 : level fc1 (S lo) = rest).
    { unfold fc1. apply level_setl_same. rewrite len_setl. lia. }
    assert (O1 : forall L, L <> lo -> L <> S lo -> level fc1 L = level fc L).
    { intros L N1 N2. unfold fc1. rewrite !level_setl_other by auto. reflexivity. }
    assert (L1 : length fc1 = length fc) by (unfold fc1; rewrite !len_setl; reflexivity).
    assert (T1 : forall f, additive f -> totF f 0 fc1 = totF f 0 fc).
    { intros f Ha. unfold fc1. rewrite totF_set0 by (rewrite len_setl; lia). rewrite level_setl_other by lia.
      rewrite totF_set0 by lia. rewrite Hlo, Hh. cbn [totL]. rewrite (Ha o lo). fold p. lia. }
    pose proof (f_srt _ Hf (S lo)) as Hs. rewrite Hh in Hs. pose proof Hs as Hs0. apply srt_cons in Hs0 as [Hs1 Hs2].
    assert (F1 : fok fc1).
    { constructor.
      - intros L. destruct (Nat.eq_dec L lo) as [->|N1].
        + rewrite V1. apply srt_cons. split; [apply srt_cons; split; [constructor|cbn; tauto]|]. cbn. intros y [<-|[]]. lia.
        + destruct (Nat.eq_dec L (S lo)) as [->|N2]; [rewrite U1; exact Hs1|]. rewrite O1 by assumption. apply (f_srt _ Hf).
      - intros k0. rewrite T1 by apply cov_additive. apply (f_cov _ Hf). }
    destruct (IH lo fc1 o [o + p] F1) as (fc' & rest' & E1 & F' & L' & H' & T' & A' & M'); try lia.
    + exact V1.
    + intros j Hj. rewrite O1 by lia. apply He. lia.
    + exists fc', rest'. split; [exact E1|]. split; [exact F'|]. split; [congruence|]. split; [exact H'|].
      split; [intros f Ha; rewrite T' by exact Ha; apply T1; exact Ha|]. split.
      * intros L q Hq Hq'. destruct (A' L q Hq Hq') as [(B1 & B2)|(B1 & B2)]; [|right; lia].
        destruct (Nat.eq_dec L lo) as [->|N1].
        { rewrite V1 in B1, B2. fold p in B2. cbn in B1, B2.
          assert (q = o) by lia. subst q.
          destruct (Nat.eq_dec k 0) as [->|Nk]; [right; lia|].
          (* the pair was split further *)
          exfalso.
          assert (Hlow : level fc' lo = [o + p]).
          { clear -E1 V1 Nk L1 Hl Hpp. destruct k as [|k]; [contradiction|]. revert E1. cbn [split_down]. rewrite V1.
            destruct lo as [|lo2]; [discriminate|]. intros E1.
            assert (G : forall n s g g', @split_down E n s g = Ok g' -> forall L, (s < L)%nat -> level g' L = level g L).
            { induction n as [|n IHn]; intros s g g' Eg L HL; cbn [split_down] in Eg; [injection Eg as <-; reflexivity|].
              destruct (level g s) as [|x t]; [discriminate|]. destruct s as [|s]; [discriminate|].
              rewrite (IHn _ _ _ Eg L) by lia. rewrite !level_setl_other by lia. reflexivity. }
            rewrite (G _ _ _ _ E1 (S lo2)) by lia. apply level_setl_same. rewrite len_setl. lia. }
          rewrite Hlow in Hq. cbn in Hq. lia. }
        destruct (Nat.eq_dec L (S lo)) as [->|N2].
        { rewrite U1 in B1, B2. left. rewrite Hh. split; right; assumption. }
        rewrite O1 in B1, B2 by assumption. left. auto.
      * replace (S lo - S k)%nat with (lo - k)%nat by lia. rewrite L1 in M'. rewrite M'.
        replace (length fc - lo)%nat with (S (length fc - S lo)) by lia. cbn [merge]. rewrite V1.
        cbn [smem snext]. rewrite !Z.eqb_refl. cbn [orb negb]. fold p. replace (o + p - o) with p by lia. rewrite Z.eqb_refl.
        rewrite L1. destruct (Nat.ltb_spec (S lo) (length fc)); [|lia]. cbn [bind].
        rewrite U1, (sinsert_head o rest Hs). cbn [serase]. rewrite Z.eqb_refl. cbn [serase]. rewrite Z.eqb_refl.
        f_equal. apply fc_ext; [rewrite !len_setl; exact L1|]. intros i. rewrite !level_setl, !len_setl, L1.
        destruct (Nat.eqb_spec i lo) as [->|N1].
        { destruct (Nat.ltb_spec lo (length fc)); [symmetry; exact Hlo|lia]. }
        destruct (Nat.eqb_spec i (S lo)) as [->|N2].
        { destruct (Nat.ltb_spec (S lo) (length fc)); [symmetry; exact Hh|lia]. }
        unfold fc1. rewrite !level_setl_other by auto. reflexivity.
Qed.

(** ** Levels of requests *)
Lemma alloc_level_ok {E} init : 0 <= init <= 2 ^ 63 -> forall fuel lv, (fuel + lv = 64)%nat ->
  (lv = 0%nat \/ 2 ^ (Z.of_nat lv - 1) < init) ->
  exists l, @alloc_level E fuel (2 ^ Z.of_nat lv) lv init = Ok l /\ init <= 2 ^ Z.of_nat l /\
    (l = 0%nat \/ 2 ^ (Z.of_nat l - 1) < init) /\ (l <= 63)%nat.
Proof.
  intros Hi. induction fuel as [|fuel IH]; intros lv Hf Hlv.
  - exfalso. assert (lv = 64%nat) by lia. subst lv. destruct Hlv as [Hlv|Hlv]; [lia|].
    replace (Z.of_nat 64 - 1) with 63 in Hlv by reflexivity. lia.
  - cbn [alloc_level]. destruct (Z.ltb_spec (2 ^ Z.of_nat lv) init) as [Hlt|Hge].
    + assert (Hlt63 : Z.of_nat lv < 63).
      { destruct (Z.le_gt_cases 63 (Z.of_nat lv)) as [H|H]; [|lia].
        pose proof (Z.pow_le_mono_r 2 63 (Z.of_nat lv) ltac:(lia) H). lia. }
      assert (Eq : u64 (2 ^ Z.of_nat lv * 2) = 2 ^ Z.of_nat (S lv)).
      { unfold u64. rewrite pow_S, Z.mul_comm. rewrite Z.mod_small; [lia|].
        pose proof (pow_pos lv). rewrite <- pow_S. split; [rewrite pow_S; lia|].
        apply Z.pow_lt_mono_r; lia. }
      rewrite Eq. apply IH; [lia|]. right. replace (Z.of_nat (S lv) - 1) with (Z.of_nat lv) by lia. exact Hlt.
    + exists lv. split; [reflexivity|]. split; [lia|]. split; [exact Hlv|].
      destruct Hlv as [Hlv|Hlv]; [lia|]. destruct (Nat.le_gt_cases lv 63) as [H|H]; [exact H|].
      assert (lv = 64%nat) by lia. subst lv. replace (Z.of_nat 64 - 1) with 63 in Hlv by reflexivity. lia.
Qed.
Lemma getAllocationLevel_ok {E} init : 0 <= init <= 2 ^ 63 ->
  exists l, @getAllocationLevel E init = Ok l /\ init <= 2 ^ Z.of_nat l /\
    (l = 0%nat \/ 2 ^ (Z.of_nat l - 1) < init) /\ (l <= 63)%nat.
Proof. intros H. apply (alloc_level_ok init H 64 0); auto. Qed.

(** ** Filling the free lists *)
Definition within (lo hi k : Z) : Z := if (lo <=? k) && (k <? hi) then 1 else 0.
Lemma cov_within k o L : cov k o L = within o (o + 2 ^ Z.of_nat L) k.
Proof. reflexivity. Qed.
Lemma within_split a b c k : a <= b <= c -> within a c k = within a b k + within b c k.
Proof.
  intros H. unfold within.
  repeat match goal with |- context [?a <=? ?b] => destruct (Z.leb_spec a b) | |- context [?a <? ?b] => destruct (Z.ltb_spec a b) end; cbn [andb]; lia.
Qed.
Lemma totF_empty f n : forall i, totF f i (repeat [] n) = 0.
Proof. induction n as [|n IH]; intros i; cbn [repeat totF]; [reflexivity|]. rewrite IH. reflexivity. Qed.
Lemma level_repeat n i : level (repeat [] n) i = [].
Proof.
  unfold level. destruct (Nat.lt_ge_cases i n) as [H|H].
  - apply nth_repeat.
  - apply nth_overflow. rewrite repeat_length. exact H.
Qed.

(** Largest chunk that fits in the remaining size. *)
Lemma fill_level {E} size : 0 < size < 2 ^ 63 -> exists lv, @getAllocationLevel E size = Ok lv /\
  let r := if size <? 2 ^ Z.of_nat lv then (2 ^ Z.of_nat lv / 2, pred lv) else (2 ^ Z.of_nat lv, lv) in
  fst r = 2 ^ Z.of_nat (snd r) /\ 2 ^ Z.of_nat (snd r) <= size < 2 ^ Z.of_nat (S (snd r)).
Proof.
  intros H. destruct (@getAllocationLevel_ok E size) as (lv & Elv & Hge & Hlow & Hle); [lia|].
  exists lv. split; [exact Elv|]. destruct (Z.ltb_spec size (2 ^ Z.of_nat lv)) as [Hlt|Hle'].
  - destruct lv as [|m]; [cbn in Hlt; lia|]. cbn [pred fst snd]. rewrite pow_S in *.
    destruct Hlow as [Hlow|Hlow]; [lia|]. replace (Z.of_nat (S m) - 1) with (Z.of_nat m) in Hlow by lia.
    split; [|lia]. rewrite Z.mul_comm. apply Z.div_mul. lia.
  - cbn [fst snd]. split; [reflexivity|]. rewrite pow_S. pose proof (pow_pos lv). lia.
Qed.

Lemma pow_lt_inv a b : 2 ^ Z.of_nat a < 2 ^ Z.of_nat b -> (a < b)%nat.
Proof.
  intros H. destruct (Nat.lt_ge_cases a b) as [|G]; [assumption|].
  pose proof (Z.pow_le_mono_r 2 (Z.of_nat b) (Z.of_nat a) ltac:(lia) ltac:(lia)). lia.
Qed.
Lemma fill_ok {E} : forall fuel used size fc m, 0 < used -> 0 <= size < 2 ^ Z.of_nat m -> (m <= length fc)%nat -> (m <= fuel)%nat ->
  (m <= 63)%nat ->
  (forall L, (L < m)%nat -> level fc L = []) -> (forall L, srt (level fc L)) -> nonadj fc ->
  exists fc', @fill E fuel used size fc = Ok fc' /\ length fc' = length fc /\ (forall L, srt (level fc' L)) /\ nonadj fc' /\
    totF csize 0 fc' = totF csize 0 fc + size /\
    forall k, totF (cov k) 0 fc' = totF (cov k) 0 fc + within used (used + size) k.
Proof.
  induction fuel as [|fuel IH]; intros used size fc m Hu Hs Hm Hf H63 Hem Hsr Hna; cbn [fill].
  - assert (m = 0%nat) by lia. subst m. cbn in Hs. destruct (Z.ltb_spec 0 size); [lia|].
    exists fc. repeat (split; [solve [auto; lia]|]). intros k.
    assert (within used (used + size) k = 0); [|lia]. unfold within.
    destruct (Z.leb_spec used k), (Z.ltb_spec k (used + size)); cbn; lia.
  - destruct (Z.ltb_spec 0 size) as [Hp|Hp].
    2:{ exists fc. repeat (split; [solve [auto; lia]|]). intros k.
        assert (within used (used + size) k = 0); [|lia]. unfold within.
        destruct (Z.leb_spec used k), (Z.ltb_spec k (used + size)); cbn; lia. }
    assert (Hb : size < 2 ^ 63).
    { pose proof (Z.pow_le_mono_r 2 (Z.of_nat m) 63 ltac:(lia) ltac:(lia)). lia. }
    destruct (@fill_level E size) as (lv & -> & Hr); [lia|]. cbn [bind].
    destruct (if size <? 2 ^ Z.of_nat lv then _ else _) as [value l]. cbn [fst snd] in Hr. destruct Hr as (-> & Hr1 & Hr2).
    destruct (Z.eqb_spec used 0); [lia|].
    assert (Hlm : (l < m)%nat) by (apply pow_lt_inv; lia).
    destruct (Nat.ltb_spec l (length fc)); [|lia].
    rewrite (Hem l Hlm). cbn [sinsert]. pose proof (pow_pos l) as Hpl. rewrite pow_S in Hr2.
    set (fc1 := setl fc l [used]).
    assert (L1 : length fc1 = length fc) by apply len_setl.
    destruct (IH (used + 2 ^ Z.of_nat l) (size - 2 ^ Z.of_nat l) fc1 l) as (fc' & E' & L' & S' & N' & Z' & C'); try lia.
    + intros L HL. unfold fc1. rewrite level_setl_other by lia. apply Hem. lia.
    + intros L. unfold fc1. rewrite level_setl. destruct (Nat.eqb_spec L l); [|apply Hsr].
      destruct (Nat.ltb_spec l (length fc)); [|lia]. apply srt_cons. split; [constructor|cbn; tauto].
    + intros L o Ho Ho'. unfold fc1 in Ho, Ho'. rewrite level_setl in Ho, Ho'. destruct (Nat.eqb_spec L l) as [->|].
      * destruct (Nat.ltb_spec l (length fc)); [|lia]. cbn in Ho, Ho'. lia.
      * apply (Hna L o Ho Ho').
    + exists fc'. split; [exact E'|]. split; [congruence|]. split; [exact S'|]. split; [exact N'|]. split.
      * rewrite Z'. unfold fc1. rewrite totF_set0 by lia. rewrite (Hem l Hlm). cbn [totL]. unfold csize at 2. lia.
      * intros k. rewrite C'. unfold fc1. rewrite totF_set0 by lia. rewrite (Hem l Hlm). cbn [totL]. rewrite cov_within.
        rewrite (within_split used (used + 2 ^ Z.of_nat l) (used + size) k) by lia.
        replace (used + 2 ^ Z.of_nat l + (size - 2 ^ Z.of_nat l)) with (used + size) by lia. lia.
Qed.
Lemma fill0_ok {E} size : 0 < size < 2 ^ 63 ->
  exists fc, @fill E 64 0 size [] = Ok fc /\ (forall L, srt (level fc L)) /\ nonadj fc /\
    totF csize 0 fc = size /\ (forall k, totF (cov k) 0 fc = within 0 size k) /\ size < 2 ^ Z.of_nat (length fc).
Proof.
  intros H. assert (Hn : exists n, 64%nat = S n /\ (63 <= n)%nat) by (exists 63%nat; split; [reflexivity|apply Nat.le_refl]).
  destruct Hn as (n & -> & Hn). cbn [fill]. destruct (Z.ltb_spec 0 size); [|lia].
  destruct (@fill_level E size H) as (lv & -> & Hr). cbn [bind].
  destruct (if size <? 2 ^ Z.of_nat lv then _ else _) as [value l]. cbn [fst snd] in Hr. destruct Hr as (-> & Hr1 & Hr2).
  cbn [Z.eqb]. rewrite repeat_length. destruct (Nat.ltb_spec l (S l)); [|lia]. rewrite level_repeat. cbn [sinsert].
  pose proof (pow_pos l) as Hpl. rewrite pow_S in Hr2.
  assert (Hl63 : (l < 63)%nat). { apply pow_lt_inv. change (Z.of_nat 63) with 63. lia. }
  set (fc1 := setl (repeat [] (S l)) l [0]). change (0 + 2 ^ Z.of_nat l) with (2 ^ Z.of_nat l).
  assert (L1 : length fc1 = S l) by (unfold fc1; rewrite len_setl; apply repeat_length).
  assert (V1 : forall L, level fc1 L = if (L =? l)%nat then [0] else []).
  { intros L. unfold fc1. rewrite level_setl, repeat_length, level_repeat.
    destruct (Nat.ltb_spec l (S l)); [|lia]. reflexivity. }
  destruct (@fill_ok E n (2 ^ Z.of_nat l) (size - 2 ^ Z.of_nat l) fc1 l) as (fc & Ef & Lf & Sf & Nf & Zf & Cf); try lia.
  - intros L HL. rewrite V1. destruct (Nat.eqb_spec L l); [lia|reflexivity].
  - intros L. rewrite V1. destruct (Nat.eqb_spec L l); [apply srt_cons; split; [constructor|cbn; tauto]|constructor].
  - intros L o Ho Ho'. rewrite V1 in Ho, Ho'. pose proof (pow_pos L). destruct (Nat.eqb_spec L l); cbn in Ho, Ho'; lia.
  - exists fc. split; [exact Ef|]. split; [exact Sf|]. split; [exact Nf|].
    assert (T1 : forall f, totF f 0 fc1 = f 0 l).
    { intros f. unfold fc1. rewrite totF_set0 by (rewrite repeat_length; lia). rewrite totF_empty, level_repeat. cbn [totL]. lia. }
    split; [rewrite Zf, T1; unfold csize; lia|]. split.
    + intros k. rewrite Cf, T1, cov_within. rewrite (within_split 0 (2 ^ Z.of_nat l) size k) by lia.
      replace (0 + 2 ^ Z.of_nat l) with (2 ^ Z.of_nat l) by lia.
      replace (2 ^ Z.of_nat l + (size - 2 ^ Z.of_nat l)) with size by lia. reflexivity.
    + rewrite Lf, L1, pow_S. lia.
Qed.

(** ** The invariant *)
Record arena_ok (size : Z) (fc : list (list Z)) (al : list (Z * nat)) : Prop := mkAok {
  ar_size : 0 < size < 2 ^ 63;
  ar_srt : forall L, srt (level fc L);
  ar_cov : forall k, totF (cov k) 0 fc + totA (cov k) al = within 0 size k;
  ar_sum : totF csize 0 fc + totA csize al = size;
  ar_len : size < 2 ^ Z.of_nat (length fc);
  ar_lev : forall o L, In (o, L) al -> (L < length fc)%nat;
  ar_adj : nonadj fc
}.
Lemma within_le lo hi k : 0 <= within lo hi k <= 1.
Proof. unfold within. destruct (_ && _); lia. Qed.
Lemma arena_fok size fc al : arena_ok size fc al -> fok fc.
Proof.
  intros H. constructor; [apply (ar_srt _ _ _ H)|]. intros k. pose proof (ar_cov _ _ _ H k).
  pose proof (totA_nonneg (cov k) al (cov_nonneg k)). pose proof (within_le 0 size k). lia.
Qed.
Lemma totA_le f al o L : (forall o L, 0 <= f o L) -> In (o, L) al -> f o L <= totA f al.
Proof.
  intros H. induction al as [|[o' L'] t IH]; intros Hi; [contradiction|]. cbn [totA]. pose proof (totA_nonneg f t H).
  destruct Hi as [Hi|Hi]; [injection Hi as -> ->; lia|]. specialize (IH Hi). specialize (H o' L'). lia.
Qed.
Lemma totA_le2 f al o L o' L' : (forall o L, 0 <= f o L) -> In (o, L) al -> In (o', L') al -> (o, L) <> (o', L') ->
  f o L + f o' L' <= totA f al.
Proof.
  intros H. induction al as [|[a b] t IH]; intros Hi Hi' N; [contradiction|]. cbn [totA].
  destruct Hi as [Hi|Hi], Hi' as [Hi'|Hi'].
  - congruence.
  - injection Hi as -> ->. pose proof (totA_le f t o' L' H Hi'). lia.
  - injection Hi' as -> ->. pose proof (totA_le f t o L H Hi). lia.
  - specialize (IH Hi Hi' N). specialize (H a b). lia.
Qed.
Lemma arena_in size fc al o L : arena_ok size fc al -> In (o, L) al -> 0 <= o /\ o + 2 ^ Z.of_nat L <= size.
Proof.
  intros H Hi. pose proof (pow_pos L) as Hp.
  assert (G : forall k, o <= k < o + 2 ^ Z.of_nat L -> 0 <= k < size).
  { intros k Hk. pose proof (ar_cov _ _ _ H k) as E. pose proof (totA_le (cov k) al o L (cov_nonneg k) Hi) as G.
    rewrite cov_in in G by exact Hk. pose proof (totF_nonneg (cov k) (cov_nonneg k) fc 0).
    unfold within in E. destruct (Z.leb_spec 0 k), (Z.ltb_spec k size); cbn in E; lia. }
  pose proof (G o ltac:(lia)). pose proof (G (o + 2 ^ Z.of_nat L - 1) ltac:(lia)). lia.
Qed.
Lemma arena_disj size fc al o L o' L' : arena_ok size fc al -> In (o, L) al -> In (o', L') al -> (o, L) <> (o', L') ->
  o + 2 ^ Z.of_nat L <= o' \/ o' + 2 ^ Z.of_nat L' <= o.
Proof.
  intros H Hi Hi' N. pose proof (pow_pos L). pose proof (pow_pos L').
  assert (G : forall k, o <= k < o + 2 ^ Z.of_nat L -> o' <= k < o' + 2 ^ Z.of_nat L' -> False).
  { intros k Hk Hk'. pose proof (totA_le2 (cov k) al o L o' L' (cov_nonneg k) Hi Hi' N) as E.
    rewrite !cov_in in E by assumption. pose proof (ar_cov _ _ _ H k). pose proof (within_le 0 size k).
    pose proof (totF_nonneg (cov k) (cov_nonneg k) fc 0). lia. }
  destruct (Z.le_gt_cases (o + 2 ^ Z.of_nat L) o'); [auto|]. destruct (Z.le_gt_cases (o' + 2 ^ Z.of_nat L') o); [auto|].
  exfalso. apply (G (Z.max o o')); lia.
Qed.
Lemma arena_key size fc al o L L' : arena_ok size fc al -> In (o, L) al -> In (o, L') al -> L = L'.
Proof.
  intros H Hi Hi'. destruct (Nat.eq_dec L L') as [|N]; [assumption|].
  destruct (arena_disj size fc al o L o L' H Hi Hi') as [G|G]; [congruence| |];
    [pose proof (pow_pos L)|pose proof (pow_pos L')]; lia.
Qed.
Lemma arena_nodup : forall al, (forall k, totA (cov k) al <= 1) -> NoDup (map fst al).
Proof.
  induction al as [|[o L] t IH]; intros H; cbn [map fst]; [constructor|]. constructor.
  - intros Hi. apply in_map_iff in Hi as ([o' L'] & E & Hi). cbn in E. subst o'.
    specialize (H o). cbn [totA] in H. pose proof (totA_le (cov o) t o L' (cov_nonneg o) Hi).
    pose proof (pow_pos L). pose proof (pow_pos L'). rewrite !cov_in in * by lia. lia.
  - apply IH. intros k. specialize (H k). cbn [totA] in H. pose proof (cov_nonneg k o L). lia.
Qed.
Lemma totA_filter f o L : forall al, NoDup (map fst al) -> In (o, L) al ->
  totA f (filter (fun c => negb (fst c =? o)) al) = totA f al - f o L.
Proof.
  assert (G : forall al : list (Z * nat), ~ In o (map fst al) -> filter (fun c => negb (fst c =? o)) al = al).
  { induction al as [|[a b] t IH]; intros H; cbn; [reflexivity|]. destruct (Z.eqb_spec a o) as [->|N]; [cbn in H; tauto|].
    cbn. f_equal. apply IH. cbn in H. tauto. }
  induction al as [|[a b] t IH]; intros Hn Hi; [contradiction|]. cbn [map fst] in Hn. inversion Hn as [|? ? Hn1 Hn2]; subst.
  cbn [filter fst]. destruct Hi as [Hi|Hi].
  - injection Hi as -> ->. rewrite Z.eqb_refl. cbn [negb]. rewrite G by assumption. cbn [totA]. lia.
  - destruct (Z.eqb_spec a o) as [->|N].
    + exfalso. apply Hn1. apply in_map_iff. exists (o, L). auto.
    + cbn [negb totA]. rewrite IH by assumption. lia.
Qed.

(** ** allocate in the arena *)
Lemma split_ok {E E'} size fc al lv : arena_ok size fc al ->
  (exists fc' o rest, @split E lv fc = Ok (Some fc') /\ level fc' lv = o :: rest /\
     arena_ok size (setl fc' lv rest) ((o, lv) :: al) /\ ~ In o (map fst al) /\
     length fc' = length fc /\ (lv < length fc)%nat /\ srt (o :: rest) /\
     @merge E' (length fc - lv) lv o fc' = Ok fc) \/
  @split E lv fc = Ok None.
Proof.
  intros H. unfold split. pose proof (find_level_spec fc (length fc - lv) lv) as Hs.
  destruct (find_level lv (length fc - lv) fc) as [s|]; [|right; reflexivity]. left.
  destruct Hs as (Hs1 & Hs2 & Hs3). destruct (level fc s) as [|o r] eqn:Hl; [contradiction|].
  pose proof (arena_fok size fc al H) as Hf.
  destruct (@split_down_ok E E' (s - lv) s fc o r Hf) as (fc' & rest & Ed & F' & L' & V' & T' & A' & M'); try lia.
  { exact Hl. } { intros j Hj. apply Hs3. lia. }
  replace (s - (s - lv))%nat with lv in * by lia.
  exists fc', o, rest. rewrite Ed. cbn [bind]. split; [reflexivity|]. split; [exact V'|].
  assert (Hlen : (lv < length fc)%nat) by lia.
  pose proof (f_srt _ F' lv) as Hsr. rewrite V' in Hsr. pose proof Hsr as Hsr0. apply srt_cons in Hsr0 as [Hsr1 Hsr2].
  assert (Htot : forall f, additive f -> totF f 0 (setl fc' lv rest) + f o lv = totF f 0 fc).
  { intros f Ha. rewrite totF_set0 by lia. rewrite V'. cbn [totL]. rewrite T' by exact Ha. lia. }
  split; [|split; [|split; [exact L'|split; [exact Hlen|split; [exact Hsr|]]]]].
  - constructor.
    + apply (ar_size _ _ _ H).
    + intros L. rewrite level_setl. destruct (Nat.eqb_spec L lv); [|apply (f_srt _ F')].
      destruct (Nat.ltb_spec lv (length fc')); [exact Hsr1|constructor].
    + intros k. cbn [totA]. pose proof (Htot (cov k) (cov_additive k)). pose proof (ar_cov _ _ _ H k). lia.
    + cbn [totA]. pose proof (Htot csize csize_additive). pose proof (ar_sum _ _ _ H). lia.
    + rewrite len_setl, L'. apply (ar_len _ _ _ H).
    + intros o' L [E0|Hi]; rewrite len_setl, L'; [injection E0 as <- <-; exact Hlen|apply (ar_lev _ _ _ H o' L Hi)].
    + intros L p Hp Hp'. rewrite level_setl in Hp, Hp'. destruct (Nat.eqb_spec L lv) as [->|N].
      * destruct (Nat.ltb_spec lv (length fc')); [|contradiction].
        destruct (A' lv p) as [(B1 & B2)|(_ & B2)]; [rewrite V'; right; exact Hp|rewrite V'; right; exact Hp'| |].
        { apply (ar_adj _ _ _ H lv p B1 B2). }
        { subst p. specialize (Hsr2 o Hp). lia. }
      * destruct (A' L p Hp Hp') as [(B1 & B2)|(B1 & _)]; [apply (ar_adj _ _ _ H L p B1 B2)|contradiction].
  - intros Hi. apply in_map_iff in Hi as ([o' L2] & Eo & Hi). cbn in Eo. subst o'.
    pose proof (ar_cov _ _ _ H o) as C. pose proof (totA_le (cov o) al o L2 (cov_nonneg o) Hi) as C1.
    pose proof (Htot (cov o) (cov_additive o)) as C2. pose proof (totF_nonneg (cov o) (cov_nonneg o) (setl fc' lv rest) 0).
    pose proof (pow_pos lv). pose proof (pow_pos L2). rewrite cov_in in C1, C2 by lia. pose proof (within_le 0 size o). lia.
  - rewrite M'. replace (length fc - s)%nat with (S (length fc - s - 1)) by lia. cbn [merge]. rewrite Hl.
    assert (Hin : In o (level fc s)) by (rewrite Hl; left; reflexivity).
    cbn [smem snext]. rewrite Z.eqb_refl. cbn [orb negb].
    pose proof (f_srt _ Hf s) as Hss. rewrite Hl in Hss. apply srt_cons in Hss as [_ Hss].
    assert (Hprev : sprev o (o :: r) = None).
    { assert (G : forall l, (forall y, In y l -> o < y) -> forall x, sprev o (x :: l) = None).
      { induction l as [|y t IH]; intros Hl' x; [reflexivity|]. cbn [sprev]. fold (sprev o (y :: t)).
        destruct (Z.eqb_spec y o) as [->|]; [specialize (Hl' o (or_introl eq_refl)); lia|].
        apply IH. intros z Hz. apply Hl'. right. exact Hz. }
      apply G. exact Hss. }
    rewrite Hprev. destruct r as [|q r]; [reflexivity|].
    destruct (Z.eqb_spec (q - o) (2 ^ Z.of_nat s)) as [Eq|]; [|reflexivity].
    exfalso. apply (ar_adj _ _ _ H s o Hin). rewrite Hl. right. left. lia.
Qed.

(** ** free of an arena chunk *)
Lemma free_arena_ok {E} size fc al o lv : arena_ok size fc al -> In (o, lv) al ->
  exists fc', @merge E (length fc - lv) lv o (setl fc lv (sinsert o (level fc lv))) = Ok fc' /\
    arena_ok size fc' (filter (fun c => negb (fst c =? o)) al) /\ length fc' = length fc.
Proof.
  intros H Hi. pose proof (ar_lev _ _ _ H o lv Hi) as Hl. pose proof (arena_fok size fc al H) as Hf.
  assert (Hn : ~ In o (level fc lv)).
  { intros Ho. pose proof (ar_cov _ _ _ H o) as C. pose proof (totA_le (cov o) al o lv (cov_nonneg o) Hi) as C1.
    pose proof (totL_le (cov o) lv (cov_nonneg o) o _ Ho) as C2. pose proof (totF_level (cov o) fc lv (cov_nonneg o)) as C3.
    pose proof (pow_pos lv). rewrite cov_in in C1, C2 by lia. pose proof (within_le 0 size o). lia. }
  set (fc1 := setl fc lv (sinsert o (level fc lv))).
  assert (T1 : forall f, totF f 0 fc1 = totF f 0 fc + f o lv).
  { intros f. unfold fc1. rewrite totF_set0 by exact Hl. rewrite totL_sinsert by exact Hn. lia. }
  assert (L1 : length fc1 = length fc) by apply len_setl.
  assert (V1 : level fc1 lv = sinsert o (level fc lv)) by (apply level_setl_same; exact Hl).
  assert (O1 : forall L, L <> lv -> level fc1 L = level fc L) by (intros L N; apply level_setl_other; auto).
  assert (Hnd : NoDup (map fst al)).
  { apply arena_nodup. intros k. pose proof (ar_cov _ _ _ H k). pose proof (within_le 0 size k).
    pose proof (totF_nonneg (cov k) (cov_nonneg k) fc 0). lia. }
  assert (F1 : fok fc1).
  { constructor.
    - intros L. destruct (Nat.eq_dec L lv) as [->|N]; [rewrite V1; apply srt_sinsert, (f_srt _ Hf)|rewrite O1 by exact N; apply (f_srt _ Hf)].
    - intros k. rewrite T1. pose proof (ar_cov _ _ _ H k) as C. pose proof (totA_le (cov k) al o lv (cov_nonneg k) Hi).
      pose proof (within_le 0 size k). lia. }
  destruct (@merge_ok E (length fc - lv) lv o fc1 F1) as (fc' & E' & F' & L' & N' & T'); try lia.
  - rewrite T1, L1. pose proof (totA_le csize al o lv csize_nonneg Hi). pose proof (ar_sum _ _ _ H). pose proof (ar_len _ _ _ H). lia.
  - rewrite V1. apply In_sinsert. auto.
  - intros L p Hp Hp'. destruct (Nat.eq_dec L lv) as [->|N].
    + split; [reflexivity|]. rewrite V1 in Hp, Hp'. apply In_sinsert in Hp, Hp'.
      destruct Hp as [Hp|Hp]; [auto|]. destruct Hp' as [Hp'|Hp']; [auto|]. destruct (ar_adj _ _ _ H lv p Hp Hp').
    + rewrite O1 in Hp, Hp' by exact N. destruct (ar_adj _ _ _ H L p Hp Hp').
  - exists fc'. split; [exact E'|]. split; [|congruence]. constructor.
    + apply (ar_size _ _ _ H).
    + apply (f_srt _ F').
    + intros k. rewrite T' by apply cov_additive. rewrite T1. rewrite (totA_filter (cov k) o lv) by assumption.
      pose proof (ar_cov _ _ _ H k). lia.
    + rewrite T' by apply csize_additive. rewrite T1. rewrite (totA_filter csize o lv) by assumption.
      pose proof (ar_sum _ _ _ H). lia.
    + rewrite L', L1. apply (ar_len _ _ _ H).
    + intros o' L2 Hi'. apply filter_In in Hi' as [Hi' _]. replace (length fc') with (length fc) by congruence.
      apply (ar_lev _ _ _ H o' L2 Hi').
    + exact N'.
Qed.
