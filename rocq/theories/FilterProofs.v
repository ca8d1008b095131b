(** Proofs about the filters of Filter.v: memory accesses and results. *)
From Coq Require Import ZArith List Bool Lia Permutation.
From Verif Require Import Base Image Spec BaseProofs ImgFun ImgLemmas ImgProofs ReduceProofs Double Edge Filter.
Import ListNotations.
Open Scope Z_scope.
Ltac Zify.zify_post_hook ::= Z.div_mod_to_equations.

(** ** The element in the middle *)

Fixpoint insert (x : Z) (l : list Z) : list Z :=
  match l with
  | [] => [x]
  | y :: l' => if x <=? y then x :: l else y :: insert x l'
  end.
Definition sort (l : list Z) : list Z := fold_right insert [] l.

Definition ordered (l : list Z) : Prop :=
  forall i j, (i <= j < length l)%nat -> nth i l 0 <= nth j l 0.

Lemma insert_perm x l : Permutation (x :: l) (insert x l).
Proof.
  induction l as [|y l IH]; [reflexivity|]. simpl. destruct (x <=? y); [reflexivity|].
  rewrite perm_swap. constructor. exact IH.
Qed.
Lemma sort_perm l : Permutation l (sort l).
Proof.
  induction l as [|x l IH]; [reflexivity|]. simpl. rewrite <- insert_perm. constructor. exact IH.
Qed.
Lemma ordered_cons x l : (forall y, In y l -> x <= y) -> ordered l -> ordered (x :: l).
Proof.
  intros Hx Hl i j [Hij Hj]. simpl in Hj. destruct i as [|i], j as [|j]; simpl; try lia.
  - apply Hx. apply nth_In. lia.
  - apply Hl. lia.
Qed.
Lemma ordered_tail x l : ordered (x :: l) -> ordered l /\ forall y, In y l -> x <= y.
Proof.
  intros H. split.
  - intros i j Hij. apply (H (S i) (S j)). simpl. lia.
  - intros y Hy. destruct (In_nth l y 0 Hy) as (n & Hn & <-). apply (H 0%nat (S n)). simpl. lia.
Qed.
Lemma insert_ordered x l : ordered l -> ordered (insert x l).
Proof.
  induction l as [|y l IH]; intros H; simpl.
  - apply ordered_cons; [intros ? []|]. exact H.
  - apply ordered_tail in H as [H1 H2]. destruct (Z.leb_spec x y).
    + apply ordered_cons; [|apply ordered_cons; auto].
      intros z [<-|Hz]; [assumption|]. specialize (H2 z Hz). lia.
    + apply ordered_cons; [|apply IH; exact H1].
      intros z Hz. apply (Permutation_in z (Permutation_sym (insert_perm x l))) in Hz as [<-|Hz]; [lia|auto].
Qed.
Lemma sort_ordered l : ordered (sort l).
Proof.
  induction l; simpl; [intros i j H; simpl in H; lia|]. apply insert_ordered. assumption.
Qed.

Lemma filter_low (p : Z -> bool) l : forall n, (forall i, (i < length l)%nat -> p (nth i l 0) = true -> (i < n)%nat) ->
  (length (filter p l) <= n)%nat.
Proof.
  induction l as [|a l IH]; intros n H; simpl; [lia|].
  destruct n as [|n].
  - assert (Hn : forall i, (i < S (length l))%nat -> p (nth i (a :: l) 0) = false).
    { intros i Hi. destruct (p (nth i (a :: l) 0)) eqn:Ep; auto. specialize (H i Hi Ep). lia. }
    rewrite (Hn 0%nat ltac:(lia) : p a = false). apply IH. intros i Hi Hp. specialize (Hn (S i) ltac:(lia)). simpl in Hn. congruence.
  - assert (length (filter p l) <= n)%nat.
    { apply IH. intros i Hi Hp. specialize (H (S i)). simpl in H. specialize (H ltac:(lia) Hp). lia. }
    destruct (p a); simpl; lia.
Qed.
Lemma filter_high (p : Z -> bool) l : forall n, (n <= length l)%nat -> (forall i, (i < n)%nat -> p (nth i l 0) = true) ->
  (n <= length (filter p l))%nat.
Proof.
  induction l as [|a l IH]; intros [|n] Hn H; simpl in *; try lia.
  rewrite (H 0%nat) by lia. simpl. apply le_n_S. apply IH; [lia|]. intros i Hi. apply (H (S i)). lia.
Qed.
Lemma filter_perm (p : Z -> bool) l l' : Permutation l l' -> length (filter p l) = length (filter p l').
Proof.
  induction 1; simpl; auto.
  - destruct (p x); simpl; congruence.
  - destruct (p x), (p y); reflexivity.
  - congruence.
Qed.

(** The contract of std::nth_element. *)
Definition partitioned (l : list Z) (n : Z) : Prop :=
  forall i, 0 <= i < Z.of_nat (length l) ->
    (i < n -> nth (Z.to_nat i) l 0 <= nth (Z.to_nat n) l 0) /\
    (n < i -> nth (Z.to_nat n) l 0 <= nth (Z.to_nat i) l 0).

Lemma nth_sorted l l' n : 0 <= n < Z.of_nat (length l) -> Permutation l l' -> partitioned l' n ->
  nth (Z.to_nat n) l' 0 = nth (Z.to_nat n) (sort l) 0.
Proof.
  intros Hn Hp Hc. set (v := nth (Z.to_nat n) l' 0). set (s := sort l).
  pose proof (Permutation_length Hp) as Hl. pose proof (sort_perm l) as Hs. fold s in Hs.
  pose proof (Permutation_length Hs) as Hl2. pose proof (sort_ordered l) as Ho. fold s in Ho.
  assert (Hps : Permutation l' s) by (rewrite <- Hp; exact Hs).
  destruct (Z.lt_trichotomy v (nth (Z.to_nat n) s 0)) as [L|[E|G]]; [exfalso|exact E|exfalso].
  - assert (A : (S (Z.to_nat n) <= length (filter (fun x => (x <=? v)%Z) l'))%nat).
    { apply filter_high; [lia|]. intros i Hi. apply Z.leb_le.
      destruct (Nat.eq_dec i (Z.to_nat n)) as [->|]; [unfold v; lia|].
      pose proof (proj1 (Hc (Z.of_nat i) ltac:(lia)) ltac:(lia)) as Q. rewrite Nat2Z.id in Q. exact Q. }
    assert (B : (length (filter (fun x => (x <=? v)%Z) s) <= Z.to_nat n)%nat).
    { apply filter_low. intros i Hi Hv. apply Z.leb_le in Hv.
      destruct (le_lt_dec (Z.to_nat n) i); [|assumption]. specialize (Ho (Z.to_nat n) i ltac:(lia)). lia. }
    rewrite (filter_perm _ _ _ Hps) in A. lia.
  - assert (A : (length (filter (fun x => (x <? v)%Z) l') <= Z.to_nat n)%nat).
    { apply filter_low. intros i Hi Hv. apply Z.ltb_lt in Hv.
      destruct (le_lt_dec (Z.to_nat n) i); [|assumption]. destruct (Nat.eq_dec i (Z.to_nat n)) as [->|]; [unfold v in Hv; lia|].
      pose proof (proj2 (Hc (Z.of_nat i) ltac:(lia)) ltac:(lia)) as Q. rewrite Nat2Z.id in Q. fold v in Q. lia. }
    assert (B : (S (Z.to_nat n) <= length (filter (fun x => (x <? v)%Z) s))%nat).
    { apply filter_high; [lia|]. intros i Hi. apply Z.ltb_lt.
      specialize (Ho i (Z.to_nat n) ltac:(lia)). lia. }
    rewrite (filter_perm _ _ _ Hps) in A. lia.
Qed.

(** ** Filling a region of a gray image step by step *)

Lemma px_gray im x y : icc im = 1 -> px im x y 0 = padd (ibase im) (y * irs im + x).
Proof. intros H. unfold px, padd. rewrite H. f_equal. lia. Qed.

Lemma px_inb m im x y c : wf m im -> 0 <= x < iw im -> 0 <= y < ih im -> 0 <= c < icc im -> inb m (px im x y c) = true.
Proof.
  intros W Hx Hy Hc. apply inb_iff. unfold px. cbn [fst snd]. destruct W. split; [nia|].
  assert (y * irs im + irs im <= ih im * irs im) by nia. nia.
Qed.

Lemma px_inj m im x y x' y' : wf m im -> icc im = 1 -> 0 <= x < iw im -> 0 <= x' < iw im ->
  px im x y 0 = px im x' y' 0 -> x = x' /\ y = y'.
Proof.
  intros W C Hx Hx' E. rewrite !px_gray in E by assumption. apply padd_inj in E.
  pose proof (wf_rs _ _ W) as Hr. rewrite C in Hr. assert (y = y') by nia. subst. lia.
Qed.

(** Memory [t] differs from [m] in the region of [out] only, and holds [val] where [D]. *)
Record filled (m t : mem) (out : image) (x y w h : Z) (D : Z -> Z -> Prop) (val : Z -> Z -> Z) : Prop := {
  fl_len : same_len m t;
  fl_frame : forall p, (forall i j, 0 <= i < w -> 0 <= j < h -> p <> px out (x + i) (y + j) 0) -> get t p = get m p;
  fl_val : forall i j, 0 <= i < w -> 0 <= j < h -> D i j -> get t (px out (x + i) (y + j) 0) = val i j
}.

Section FILL.
Variables (m : mem) (out : image) (x y w h : Z) (val : Z -> Z -> Z).
Hypothesis Wo : wf m out.
Hypothesis Go : icc out = 1.
Hypothesis Ro : roi_in out x y w h.

Lemma filled_start (D : Z -> Z -> Prop) : (forall i j, 0 <= i < w -> 0 <= j < h -> ~ D i j) -> filled m m out x y w h D val.
Proof. intros H. split; [apply same_len_refl|auto|]. intros i j Hi Hj d. destruct (H i j Hi Hj d). Qed.

Lemma filled_weaken t (D D' : Z -> Z -> Prop) : (forall i j, 0 <= i < w -> 0 <= j < h -> D' i j -> D i j) ->
  filled m t out x y w h D val -> filled m t out x y w h D' val.
Proof. intros H [A B C]. split; auto. Qed.

Lemma filled_store {E} t D i j v : filled m t out x y w h D val -> 0 <= i < w -> 0 <= j < h -> v = val i j ->
  exists t', @store E t (px out (x + i) (y + j) 0) v = Ok t' /\
    filled m t' out x y w h (fun a b => D a b \/ (a = i /\ b = j)) val.
Proof.
  intros [A B C] Hi Hj ->. destruct Ro. assert (I : inb t (px out (x + i) (y + j) 0) = true).
  { rewrite (same_len_inb m t) by assumption. apply px_inb; auto; lia. }
  rewrite store_ok by exact I. eexists. split; [reflexivity|]. split.
  - intros b. rewrite len_upd. apply A.
  - intros p Hp. rewrite get_upd_other by (apply Hp; assumption). apply B. exact Hp.
  - intros a b Ha Hb Hd. rewrite get_upd. destruct (ptr_eqb_spec (px out (x + a) (y + b) 0) (px out (x + i) (y + j) 0)) as [Eq|N].
    + apply (px_inj m) in Eq; auto; try lia. replace a with i by lia. replace b with j by lia. reflexivity.
    + destruct Hd as [Hd|[-> ->]]; [|congruence]. apply C; auto.
Qed.

Lemma filled_rect {E} (r : res E mem) t D a b w' h' (v : Z -> Z -> Z -> Z) :
  filled m t out x y w h D val -> 0 <= a -> 0 <= b -> a + w' <= w -> b + h' <= h ->
  writes r t out (x + a) (y + b) w' h' v ->
  (forall i j, 0 <= i < w' -> 0 <= j < h' -> v i j 0 = val (a + i) (b + j)) ->
  exists t', r = Ok t' /\
    filled m t' out x y w h (fun i j => D i j \/ (a <= i < a + w' /\ b <= j < b + h')) val.
Proof.
  intros [A B C] Ha Hb Hw Hh (t' & Er & Hv & Hl & Hf) HV. exists t'. split; [exact Er|].
  assert (Hf' : forall p, (forall i j, 0 <= i < w' -> 0 <= j < h' -> p <> px out (x + a + i) (y + b + j) 0) -> get t' p = get t p).
  { intros p Hp. apply Hf. intros i j c (Hi & Hj & Hc). replace c with 0 by lia. apply Hp; assumption. }
  destruct Ro. split.
  - eapply same_len_trans; eauto.
  - intros p Hp. rewrite Hf'; [apply B; exact Hp|]. intros i j Hi Hj.
    replace (x + a + i) with (x + (a + i)) by lia. replace (y + b + j) with (y + (b + j)) by lia. apply Hp; lia.
  - intros i j Hi Hj Hd.
    destruct (Z_lt_dec i a) as [L1|G1]; [|destruct (Z_lt_dec i (a + w')) as [L2|G2]; [|]].
    + rewrite Hf'.
      * apply C; auto. destruct Hd; [assumption|lia].
      * intros i' j' Hi' Hj' Eq. apply (px_inj m) in Eq; auto; lia.
    + destruct (Z_lt_dec j b) as [L3|G3]; [|destruct (Z_lt_dec j (b + h')) as [L4|G4]].
      * rewrite Hf'; [apply C; auto; destruct Hd; [assumption|lia]|].
        intros i' j' Hi' Hj' Eq. apply (px_inj m) in Eq; auto; lia.
      * specialize (Hv (i - a) (j - b) 0). unfold pixel in Hv.
        replace (x + a + (i - a)) with (x + i) in Hv by lia. replace (y + b + (j - b)) with (y + j) in Hv by lia.
        rewrite Hv by (unfold inside; lia). rewrite HV by lia. f_equal; lia.
      * rewrite Hf'; [apply C; auto; destruct Hd; [assumption|lia]|].
        intros i' j' Hi' Hj' Eq. apply (px_inj m) in Eq; auto; lia.
    + rewrite Hf'.
      * apply C; auto. destruct Hd; [assumption|lia].
      * intros i' j' Hi' Hj' Eq. apply (px_inj m) in Eq; auto; lia.
Qed.

Lemma filled_memset {E} t D b : filled m t out x y w h D val -> 0 <= b < h ->
  (forall i, 0 <= i < w -> val i b = 0) ->
  exists t', @memset E t (px out x (y + b) 0) 0 w = Ok t' /\
    filled m t' out x y w h (fun i j => D i j \/ j = b) val.
Proof.
  intros F Hb HV. destruct Ro.
  assert (M : @memset E t (px out x (y + b) 0) 0 w
              = iterM (Z.to_nat w) 0 (fun i m => store m (padd (px out x (y + b) 0) i) 0) t).
  { rewrite <- memset_iterM. rewrite padd_0, Z2Nat.id by lia. reflexivity. }
  rewrite M.
  destruct (@iterM_inv E mem (fun i t => filled m t out x y w h (fun a c => D a c \/ (c = b /\ a < i)) val)
              (fun i m => store m (padd (px out x (y + b) 0) i) 0) (Z.to_nat w) 0 t) as (t' & Et & Ft).
  - revert F. apply filled_weaken. intros i j Hi Hj [Hd|]; [assumption|lia].
  - intros i t0 Hi F0. destruct (@filled_store E t0 _ i b 0 F0) as (t1 & E1 & F1); try lia.
    { symmetry. apply HV. lia. }
    exists t1. split.
    + rewrite <- E1. f_equal. rewrite !px_gray by assumption. rewrite padd_padd. f_equal. lia.
    + revert F1. apply filled_weaken. intros a c Ha Hc [Hd|Hd]; [tauto|]. destruct (Z.eq_dec a i); [right; lia|left; right; lia].
  - exists t'. split; [exact Et|]. revert Ft. apply filled_weaken. intros i j Hi Hj [Hd|Hd]; [tauto|right; lia].
Qed.

Lemma filled_writes {E} (r : res E mem) t (D : Z -> Z -> Prop) : r = Ok t -> filled m t out x y w h D val ->
  (forall i j, 0 <= i < w -> 0 <= j < h -> D i j) -> writes r m out x y w h (fun i j _ => val i j).
Proof.
  intros -> [A B C] HD. exists t. split; [reflexivity|]. split.
  - intros i j c (Hi & Hj & Hc). replace c with 0 by lia. apply C; auto.
  - split; [exact A|]. intros p Hp. apply B. intros i j Hi Hj. apply Hp. unfold inside. lia.
Qed.
End FILL.

(** ** Median *)

Definition zseq (n : Z) : list Z := map Z.of_nat (seq 0 (Z.to_nat n)).

(** The k x k pixels from (x,y), row by row. *)
Definition window (m : mem) (im : image) (x y k : Z) : list Z :=
  flat_map (fun j => map (fun i => pixel m im (x + i) (y + j) 0) (zseq k)) (zseq k).

Lemma zseq_length n : length (zseq n) = Z.to_nat n.
Proof. unfold zseq. rewrite map_length, seq_length. reflexivity. Qed.
Lemma zseq_S n : 0 <= n -> zseq (n + 1) = zseq n ++ [n].
Proof.
  intros H. unfold zseq. replace (Z.to_nat (n + 1)) with (S (Z.to_nat n)) by lia.
  rewrite seq_S, map_app. simpl. rewrite Z2Nat.id by lia. reflexivity.
Qed.
Lemma window_length m im x y k : 0 <= k -> Z.of_nat (length (window m im x y k)) = k * k.
Proof.
  intros Hk. unfold window.
  assert (A : forall l, length (flat_map (fun j => map (fun i => pixel m im (x + i) (y + j) 0) (zseq k)) l)
            = (length l * Z.to_nat k)%nat).
  { induction l; simpl; [reflexivity|]. rewrite app_length, map_length, zseq_length, IHl. reflexivity. }
  rewrite A, zseq_length. lia.
Qed.

Lemma lset_app l a x rest : lset (l ++ a :: rest) (length l) x = l ++ x :: rest.
Proof. induction l; simpl; [reflexivity|]. f_equal. exact IHl. Qed.

Lemma gather_ok m im x y k data : wf m im -> icc im = 1 -> roi_in im x y k k ->
  Z.of_nat (length data) = k * k ->
  gather m (px im x y 0) (irs im) k data = Ok (window m im x y k).
Proof.
  intros W G R HL. destruct R. pose proof (wf_rs_pos _ _ W) as Hrs.
  pose proof (wf_rs _ _ W) as Hrs2. pose proof (wf_size _ _ W) as Hsz.
  unfold gather. rewrite u32_small by nia.
  rewrite (@walk2_iterM mem _ k k k k (px im x y 0) [] (irs im) [] 1 []) by (auto; lia).
  set (part := fun j i => flat_map (fun j => map (fun i => pixel m im (x + i) (y + j) 0) (zseq k)) (zseq j)
                 ++ map (fun i => pixel m im (x + i) (y + j) 0) (zseq i)).
  destruct (@iterM2_inv mem (Z * list Z)
     (fun j i s => fst s = j * k + i /\ exists rest, snd s = part j i ++ rest /\
         Z.of_nat (length (part j i)) = j * k + i /\ Z.of_nat (length (snd s)) = k * k)
     (fun j i s => do v <- load m (c0 (cells (zip3 [px im x y 0] [irs im] [1]) j i));
                    do d <- vset (snd s) (fst s) v; Ok (fst s + 1, d)) k k (0, data))
     as (s & Es & Hs1 & rest & Hs2 & Hs3 & Hs4); try lia.
  - cbn [fst snd]. split; [reflexivity|]. exists data. split; [reflexivity|]. split; [reflexivity|]. exact HL.
  - intros j i [n d] Hj Hi (H1 & rest & H2 & H3 & H4). cbn [fst snd] in *.
    unfold c0, cells, zip3. cbn [map nth fst snd].
    replace (padd (px im x y 0) (j * irs im + i * 1)) with (px im (x + i) (y + j) 0)
      by (rewrite !px_gray by assumption; rewrite padd_padd; f_equal; lia).
    rewrite load_ok by (apply px_inb; auto; lia). cbn [bind]. unfold vset.
    assert (j * k + i < k * k) by nia.
    replace ((0 <=? n) && (n <? Z.of_nat (length d))) with true by (symmetry; apply andb_true_intro; split; lia).
    cbn [bind]. destruct rest as [|r rest].
    { rewrite app_nil_r in H2. subst d. lia. }
    eexists. split; [reflexivity|]. cbn [fst snd]. split; [lia|]. exists rest.
    assert (P : part j (i + 1) = part j i ++ [pixel m im (x + i) (y + j) 0]).
    { unfold part. rewrite zseq_S by lia. rewrite map_app. cbn [map]. rewrite app_assoc. reflexivity. }
    split; [|split].
    + subst d. replace (Z.to_nat n) with (length (part j i)) by lia. rewrite lset_app, P, <- app_assoc. reflexivity.
    + rewrite P, app_length. simpl. lia.
    + rewrite lset_length. exact H4.
  - intros j [n d] Hj (H1 & rest & H2 & H3 & H4). cbn [fst snd] in *. split; [lia|]. exists rest.
    assert (P : part (j + 1) 0 = part j k).
    { unfold part. rewrite zseq_S by lia. rewrite flat_map_app. cbn [flat_map]. rewrite !app_nil_r. reflexivity. }
    rewrite P. split; [exact H2|]. split; [lia|exact H4].
  - unfold c0 in *. rewrite Es. cbn [bind]. f_equal. rewrite Hs2.
    assert (P : part k 0 = window m im x y k) by (unfold part, window; rewrite app_nil_r; reflexivity).
    rewrite P in *. destruct rest; [apply app_nil_r|]. rewrite Hs2, app_length in Hs4. simpl in Hs4. lia.
Qed.

Lemma filled_input m t inp xi yi wi hi out xo yo w h D val :
  filled m t out xo yo w h D val -> icc inp = 1 -> icc out = 1 ->
  disjoint out xo yo w h inp xi yi wi hi ->
  forall a b, 0 <= a < wi -> 0 <= b < hi -> pixel t inp (xi + a) (yi + b) 0 = pixel m inp (xi + a) (yi + b) 0.
Proof.
  intros [A B C] Gi Go Hd a b Ha Hb. unfold pixel. apply B. intros i j Hi Hj Eq.
  apply (Hd i j 0 a b 0); auto; unfold inside; try lia.
Qed.

Lemma window_ext m t im x y k :
  (forall i j, 0 <= i < k -> 0 <= j < k -> pixel t im (x + i) (y + j) 0 = pixel m im (x + i) (y + j) 0) ->
  window t im x y k = window m im x y k.
Proof.
  intros H. unfold window. rewrite !flat_map_concat_map. f_equal. apply map_ext_in.
  intros j Hj. apply map_ext_in. intros i Hi. unfold zseq in *.
  apply in_map_iff in Hj as (j' & <- & Hj). apply in_map_iff in Hi as (i' & <- & Hi). apply in_seq in Hi, Hj. apply H; lia.
Qed.

Lemma disjoint_sub a xa ya wa ha b xb yb wb hb xa' ya' wa' ha' xb' yb' wb' hb' :
  disjoint a xa ya wa ha b xb yb wb hb ->
  xa <= xa' -> ya <= ya' -> xa' + wa' <= xa + wa -> ya' + ha' <= ya + ha ->
  xb <= xb' -> yb <= yb' -> xb' + wb' <= xb + wb -> yb' + hb' <= yb + hb ->
  disjoint a xa' ya' wa' ha' b xb' yb' wb' hb'.
Proof.
  intros H H1 H2 H3 H4 H5 H6 H7 H8 i j c i' j' c' (I1 & I2 & I3) (J1 & J2 & J3) Eq.
  apply (H (xa' - xa + i) (ya' - ya + j) c (xb' - xb + i') (yb' - yb + j') c'); unfold inside; try lia.
  replace (xa + (xa' - xa + i)) with (xa' + i) by lia. replace (ya + (ya' - ya + j)) with (ya' + j) by lia.
  replace (xb + (xb' - xb + i')) with (xb' + i') by lia. replace (yb + (yb' - yb + j')) with (yb' + j') by lia. exact Eq.
Qed.

Definition med (m : mem) (inp : image) (x y k : Z) : Z :=
  nth (Z.to_nat (k * k / 2)) (sort (window m inp x y k)) 0.

Definition median_val (m : mem) (inp : image) (xi yi w h k i j : Z) : Z :=
  if (k / 2 <=? i) && (i <? w - k / 2) && (k / 2 <=? j) && (j <? h - k / 2)
  then med m inp (xi + i - k / 2) (yi + j - k / 2) k
  else pixel m inp (xi + i) (yi + j) 0.

Lemma mul_small a b r : 0 <= a <= b -> 0 < r -> b * r < W32 -> 0 <= a * r < W32.
Proof. intros. nia. Qed.

Section MEDIAN.
Variable nth_element : list Z -> Z -> list Z.
Hypothesis Hnth : forall l n, 0 <= n < Z.of_nat (length l) ->
  Permutation l (nth_element l n) /\ partitioned (nth_element l n) n.

Lemma Median_ok m inp xi yi out xo yo w h k :
  wf m inp -> wf m out -> icc inp = 1 -> icc out = 1 ->
  roi_in inp xi yi w h -> roi_in out xo yo w h ->
  disjoint out xo yo w h inp xi yi w h ->
  3 <= k -> k mod 2 = 1 -> k < w -> k < h ->
  writes (Median nth_element m inp xi yi out xo yo w h k) m out xo yo w h
    (fun i j _ => median_val m inp xi yi w h k i j).
Proof.
  intros Wi Wo Gi Go Ri Ro Dj K1 K2 K3 K4.
  pose proof (wf_rs_pos _ _ Wi) as Hrsi. pose proof (wf_rs_pos _ _ Wo) as Hrso.
  pose proof (wf_rs _ _ Wi) as Hri. pose proof (wf_rs _ _ Wo) as Hro.
  pose proof (wf_size _ _ Wi) as Hsi. pose proof (wf_size _ _ Wo) as Hso.
  rewrite Gi in Hri. rewrite Go in Hro.
  set (val := median_val m inp xi yi w h k).
  set (q := k / 2) in *. assert (Hq : k = 2 * q + 1 /\ 1 <= q) by (subst q; lia).
  destruct Ri as [Rx Ry Rw Rh Rxw Ryh] eqn:ERi. destruct Ro as [Sx Sy Sw Sh Sxw Syh] eqn:ERo.
  assert (Bw : 0 <= iw inp < W32 /\ 0 <= ih inp < W32 /\ 0 <= iw out < W32 /\ 0 <= ih out < W32) by nia.
  assert (Hkk : k * k < W32) by nia.
  unfold Median. unfold valid_roi2. rewrite !(valid_roi_ok m) by assumption.
  unfold is_gray. rewrite Gi, Go. change (1 =? GRAY_SCALE) with true. cbn [andb].
  replace (k <? 3) with false by lia. replace (k mod 2 =? 0) with false by lia.
  replace (w <=? k) with false by lia. replace (h <=? k) with false by lia. cbn [orb negb].
  fold q. unfold W32 in Bw.
  rewrite !u32_small by (unfold W32; lia).
  (* one border strip *)
  assert (Strip : forall t D a b w' h', filled m t out xo yo w h D val ->
     0 <= a -> 0 <= b -> a + w' <= w -> b + h' <= h -> 0 < w' -> 0 < h' ->
     (a + w' <= q \/ w - q <= a \/ b + h' <= q \/ h - q <= b) ->
     exists t', Copy t inp (xi + a) (yi + b) out (xo + a) (yo + b) w' h' = Ok t' /\
       filled m t' out xo yo w h (fun i j => D i j \/ (a <= i < a + w' /\ b <= j < b + h')) val).
  { intros t D a b w' h' F Ha Hb Hw Hh Hw' Hh' Hs.
    pose proof (fl_len _ _ _ _ _ _ _ _ _ F) as Lt.
    apply (filled_rect m out xo yo w h val Wo Go Ro (Copy t inp (xi + a) (yi + b) out (xo + a) (yo + b) w' h') t D a b w' h'
             (fun i j c => pixel t inp (xi + a + i) (yi + b + j) c)); auto.
    - apply Copy_writes.
      + apply (wf_same_len m); auto.
      + apply (wf_same_len m); auto.
      + congruence.
      + constructor; lia.
      + constructor; lia.
      + apply (disjoint_sub _ _ _ _ _ _ _ _ _ _ _ _ _ _ _ _ _ _ Dj); lia.
    - intros i j Hi Hj.
      replace (xi + a + i) with (xi + (a + i)) by lia. replace (yi + b + j) with (yi + (b + j)) by lia.
      rewrite (filled_input m t inp xi yi w h out xo yo w h D val F) by (auto; lia).
      unfold val, median_val. fold q.
      replace ((q <=? a + i) && (a + i <? w - q) && (q <=? b + j) && (b + j <? h - q)) with false; [reflexivity|].
      symmetry. apply not_true_iff_false. rewrite !andb_true_iff. lia. }
  destruct (Strip m (fun _ _ => False) 0 0 w q) as (t1 & E1 & F1); try lia.
  { apply filled_start. tauto. }
  rewrite !Z.add_0_r in E1. rewrite E1. cbn [bind]. clear E1.
  destruct (Strip t1 _ 0 (h - q) w q F1) as (t2 & E2 & F2); try lia.
  rewrite !Z.add_0_r in E2. replace (yi + h - q) with (yi + (h - q)) by lia. replace (yo + h - q) with (yo + (h - q)) by lia.
  rewrite E2. cbn [bind]. clear E2.
  destruct (Strip t2 _ 0 q q (h - (k - 1)) F2) as (t3 & E3 & F3); try lia.
  rewrite !Z.add_0_r in E3. rewrite E3. cbn [bind]. clear E3.
  destruct (Strip t3 _ (w - q) q q (h - (k - 1)) F3) as (t4 & E4 & F4); try lia.
  replace (xi + w - q) with (xi + (w - q)) by lia. replace (xo + w - q) with (xo + (w - q)) by lia.
  rewrite E4. cbn [bind]. clear E4 Strip F1 F2 F3 t1 t2 t3.
  assert (F5 : filled m t4 out xo yo w h (fun i j => ~ (q <= i < w - q /\ q <= j < h - q)) val).
  { revert F4. apply filled_weaken. intros i j Hi Hj H. lia. }
  clear F4.
  (* the interior *)
  rewrite (row_ptr_origin m inp xi yi w h) by (auto; lia).
  rewrite (row_ptr_origin m out xo (yo + q) w (h - q)) by (auto; try constructor; lia).
  replace (origin inp xi yi 1) with (px inp xi yi 0) by (rewrite px_gray by assumption; unfold origin; f_equal; lia).
  replace (padd (origin out xo (yo + q) 1) q) with (px out (xo + q) (yo + q) 0)
    by (rewrite px_gray by assumption; unfold origin; rewrite padd_padd; f_equal; lia).
  rewrite (u32_small (k * k)) by (split; [clear - K1; nia|exact Hkk]).
  rewrite (u32_small (w - (k - 1))) by (unfold W32; lia).
  set (H' := h - (k - 1)). set (W' := w - (k - 1)).
  rewrite (u32_small (H' * irs out)) by (apply (mul_small H' (ih out)); subst H'; lia).
  rewrite (@walk2_iterM mem _ H' W' H' W' (px out (xo + q) (yo + q) 0) [px inp xi yi 0] (irs out) [irs inp] 1 [1])
    by (subst H' W'; auto; try lia).
  set (D := fun j i a b => ~ (q <= a < w - q /\ q <= b < h - q) \/ (q <= b /\ b - q < j) \/ (b - q = j /\ a - q < i)).
  match goal with |- context [iterM _ 0 (fun j => iterM _ 0 (fun i => @?g j i)) (t4, ?d0)] =>
    destruct (@iterM2_inv mem (mem * list Z)
       (fun j i s => filled m (fst s) out xo yo w h (D j i) val /\ Z.of_nat (length (snd s)) = k * k)
       g H' W' (t4, d0)) as (s & Es & Fs & _) end.
  - subst H'; lia.
  - subst W'; lia.
  - cbn [fst snd]. split.
    + revert F5. apply filled_weaken. unfold D. intros i j Hi Hj Hd. lia.
    + rewrite repeat_length. lia.
  - intros j i [t d] Hj Hi [F L]. cbn [fst snd] in F, L. cbv beta. unfold c0, c1, cells, zip3. cbn [map nth fst snd].
    pose proof (fl_len _ _ _ _ _ _ _ _ _ F) as Lt.
    replace (padd (px inp xi yi 0) (j * irs inp + i * 1)) with (px inp (xi + i) (yi + j) 0)
      by (rewrite !px_gray by assumption; rewrite padd_padd; f_equal; lia).
    replace (padd (px out (xo + q) (yo + q) 0) (j * irs out + i * 1)) with (px out (xo + (q + i)) (yo + (q + j)) 0)
      by (rewrite !px_gray by assumption; rewrite padd_padd; f_equal; lia).
    rewrite gather_ok; auto.
    2:{ apply (wf_same_len m); auto. }
    2:{ subst H' W'. constructor; lia. }
    cbn [bind].
    rewrite (window_ext m t inp (xi + i) (yi + j) k).
    2:{ intros a b Ha Hb. replace (xi + i + a) with (xi + (i + a)) by lia. replace (yi + j + b) with (yi + (j + b)) by lia.
        apply (filled_input m t inp xi yi w h out xo yo w h _ _ F); auto; subst H' W'; lia. }
    pose proof (window_length m inp (xi + i) (yi + j) k ltac:(lia)) as Lw.
    destruct (Hnth (window m inp (xi + i) (yi + j) k) (k * k / 2) ltac:(rewrite Lw; clear - K1; nia)) as (P1 & P2).
    pose proof (Permutation_length P1) as Ln.
    unfold vnth at 1. replace ((0 <=? k * k / 2) && (k * k / 2 <? Z.of_nat (length (nth_element (window m inp (xi + i) (yi + j) k) (k * k / 2))))) with true
      by (symmetry; rewrite <- Ln, Lw; clear - K1; apply andb_true_intro; split; nia).
    cbn [bind].
    assert (Hk2 : 0 <= k * k / 2 < Z.of_nat (length (window m inp (xi + i) (yi + j) k))) by (rewrite Lw; clear - K1; nia).
    rewrite (nth_sorted (window m inp (xi + i) (yi + j) k) _ (k * k / 2) Hk2 P1 P2).
    destruct (@filled_store m out xo yo w h val Wo Go Ro mem t (D j i) (q + i) (q + j) (med m inp (xi + i) (yi + j) k) F)
      as (t' & Et & Ft); try (subst H' W'; lia).
    + unfold val, median_val. fold q.
      replace ((q <=? q + i) && (q + i <? w - q) && (q <=? q + j) && (q + j <? h - q)) with true.
      * f_equal; lia.
      * symmetry. rewrite !andb_true_iff. subst H' W'. lia.
    + unfold med in Et. rewrite Et. cbn [bind]. eexists. split; [reflexivity|]. cbn [fst snd]. split.
      * revert Ft. apply filled_weaken. unfold D. intros a b Ha Hb Hd.
        destruct (Z.eq_dec a (q + i)); [|left; lia]. destruct (Z.eq_dec b (q + j)); [right; lia|left; lia].
      * lia.
  - intros j [t d] Hj [F L]. split; [|exact L]. cbn [fst] in *. revert F. apply filled_weaken. unfold D. intros a b Ha Hb Hd.
    subst H' W'. lia.
  - rewrite Es. cbn [bind]. apply (filled_writes m out xo yo w h val Go _ (fst s) (D H' 0)); auto.
    unfold D. subst H'. intros; lia.
Qed.
End MEDIAN.

(** ** Prewitt and Sobel *)

Lemma magnitude_sym n i j : magnitude n i j = magnitude n j i.
Proof. unfold magnitude. rewrite (Z.add_comm (u32 (i * i))). reflexivity. Qed.

(** Entry [i],[j] of the table. *)
Definition entry (junk : num -> res mem Z) (n i j : Z) : res mem Z := cast_to 256 junk (magnitude n i j).

Lemma filter_kernel_ok junk n : 0 <= n -> (forall i j, exists v, entry junk n i j = Ok v) ->
  exists t, filter_kernel junk n = Ok t /\
    forall i j, 0 <= i < 256 * n -> 0 <= j < 256 * n -> entry junk n i j = Ok (t i j).
Proof.
  intros Hn Hj. unfold filter_kernel. set (size := 256 * n).
  destruct (@iterM_inv mem table
     (fun i t => forall a b, 0 <= a < size -> 0 <= b < size -> a < i \/ b < i -> entry junk n a b = Ok (t a b))
     (fun i t => iterM (Z.to_nat (size - i)) i
       (fun j t => do v <- cast_to 256 junk (magnitude n i j); Ok (table_set (table_set t j i v) i j v)) t)
     (Z.to_nat size) 0 (fun _ _ => 0)) as (t & Et & Ht).
  - intros; lia.
  - intros i t Hi Ht.
    destruct (@iterM_inv mem table
       (fun j t => forall a b, 0 <= a < size -> 0 <= b < size ->
          a < i \/ b < i \/ (a = i /\ b < j) \/ (b = i /\ a < j) -> entry junk n a b = Ok (t a b))
       (fun j t => do v <- cast_to 256 junk (magnitude n i j); Ok (table_set (table_set t j i v) i j v))
       (Z.to_nat (size - i)) i t) as (t' & Et' & Ht').
    + intros a b Ha Hb H. apply Ht; auto. lia.
    + intros j u Hj0 Hu. destruct (Hj i j) as (v & Ev). unfold entry in Ev. rewrite Ev. cbn [bind].
      eexists. split; [reflexivity|]. intros a b Ha Hb H. unfold table_set.
      destruct ((a =? i) && (b =? j)) eqn:E1.
      { assert (a = i) as -> by lia. assert (b = j) as -> by lia. exact Ev. }
      destruct ((a =? j) && (b =? i)) eqn:E2.
      { assert (a = j) as -> by lia. assert (b = i) as -> by lia. unfold entry. rewrite magnitude_sym. exact Ev. }
      apply Hu; auto. lia.
    + exists t'. split; [exact Et'|]. intros a b Ha Hb H. apply Ht'; auto. lia.
  - exists t. split; [exact Et|]. intros i j Hi Hjj. apply Ht; auto. lia.
Qed.

(** Which pixels of the region count as border. *)
Definition edge_pixel (inp : image) (xi yi w h i j : Z) : bool :=
  (xi + i =? 0) || (yi + j =? 0) || ((i =? w - 1) && (iw inp <=? xi + w + 1)) || ((j =? h - 1) && (ih inp <=? yi + h + 1)).

Section GRADIENT.
Variables (n : Z) (at_point : mem -> ptr -> Z -> res mem (Z * Z)) (G : mem -> image -> Z -> Z -> Z * Z).
Hypothesis Hat : forall t im a b, wf t im -> icc im = 1 -> 1 <= a < iw im - 1 -> 1 <= b < ih im - 1 ->
  at_point t (px im a b 0) (irs im) = Ok (G t im a b).
Hypothesis Hext : forall t m im a b,
  (forall i j, -1 <= i <= 1 -> -1 <= j <= 1 -> pixel t im (a + i) (b + j) 0 = pixel m im (a + i) (b + j) 0) ->
  G t im a b = G m im a b.

Lemma gradient_ok junk m inp xi yi out xo yo w h T :
  wf m inp -> wf m out -> icc inp = 1 -> icc out = 1 ->
  roi_in inp xi yi w h -> roi_in out xo yo w h ->
  disjoint out xo yo w h inp 0 0 (iw inp) (ih inp) ->
  3 <= w -> 3 <= h ->
  filter_kernel junk n = Ok T ->
  (forall a b, 1 <= a < iw inp - 1 -> 1 <= b < ih inp - 1 ->
     Z.abs (fst (G m inp a b)) < 256 * n /\ Z.abs (snd (G m inp a b)) < 256 * n) ->
  writes (gradient_filter n at_point junk m inp xi yi out xo yo w h) m out xo yo w h
    (fun i j _ => if edge_pixel inp xi yi w h i j then 0
                  else T (Z.abs (fst (G m inp (xi + i) (yi + j)))) (Z.abs (snd (G m inp (xi + i) (yi + j))))).
Proof.
  intros Wi Wo Gi Go Ri Ro Dj W3 H3 HT HG.
  pose proof (wf_rs_pos _ _ Wi) as Hrsi. pose proof (wf_rs_pos _ _ Wo) as Hrso.
  pose proof (wf_rs _ _ Wi) as Hri. pose proof (wf_rs _ _ Wo) as Hro.
  pose proof (wf_size _ _ Wi) as Hsi. pose proof (wf_size _ _ Wo) as Hso.
  rewrite Gi in Hri. rewrite Go in Hro.
  set (val := fun i j => if edge_pixel inp xi yi w h i j then 0
                  else T (Z.abs (fst (G m inp (xi + i) (yi + j)))) (Z.abs (snd (G m inp (xi + i) (yi + j))))).
  pose proof Ri as Ri'. pose proof Ro as Ro'.
  destruct Ri' as [Rx Ry Rw Rh Rxw Ryh]. destruct Ro' as [Sx Sy Sw Sh Sxw Syh].
  assert (Bw : 0 <= iw inp < 2147483648 /\ 0 <= ih inp < 2147483648 /\ 0 <= iw out < W32 /\ 0 <= ih out < W32)
    by (unfold W32 in *; clear - Hri Hro Hsi Hso Rxw Ryh Sxw Syh W3 H3 Rx Ry Sx Sy Hrsi Hrso; nia).
  unfold gradient_filter. unfold valid_roi2. rewrite !(valid_roi_ok m) by assumption.
  unfold is_gray. rewrite Gi, Go. change (1 =? GRAY_SCALE) with true. cbn [andb].
  replace (w <? 3) with false by lia. replace (h <? 3) with false by lia. cbn [orb negb].
  unfold W32 in Bw.
  rewrite (u32_small (xi + w)) by (unfold W32; lia). rewrite (u32_small (xi + w + 1)) by (unfold W32; lia).
  rewrite (u32_small (yi + h)) by (unfold W32; lia). rewrite (u32_small (yi + h + 1)) by (unfold W32; lia).
  set (sx := if 0 <? xi then 1 else 0). set (sy := if 0 <? yi then 1 else 0).
  set (ex := if xi + w + 1 <? iw inp then 1 else 0). set (ey := if yi + h + 1 <? ih inp then 1 else 0).
  assert (Hsx : (sx = 0 /\ xi = 0) \/ (sx = 1 /\ 0 < xi)) by (subst sx; destruct (Z.ltb_spec 0 xi); lia).
  assert (Hsy : (sy = 0 /\ yi = 0) \/ (sy = 1 /\ 0 < yi)) by (subst sy; destruct (Z.ltb_spec 0 yi); lia).
  assert (Hex : (ex = 0 /\ iw inp <= xi + w + 1) \/ (ex = 1 /\ xi + w + 1 < iw inp))
    by (subst ex; destruct (Z.ltb_spec (xi + w + 1) (iw inp)); lia).
  assert (Hey : (ey = 0 /\ ih inp <= yi + h + 1) \/ (ey = 1 /\ yi + h + 1 < ih inp))
    by (subst ey; destruct (Z.ltb_spec (yi + h + 1) (ih inp)); lia).
  clearbody sx sy ex ey.
  replace (if 0 <? sx then 0 else 1) with (1 - sx) by (destruct (Z.ltb_spec 0 sx); lia).
  replace (if 0 <? sy then 0 else 1) with (1 - sy) by (destruct (Z.ltb_spec 0 sy); lia).
  replace (if 0 <? ex then 0 else 1) with (1 - ex) by (destruct (Z.ltb_spec 0 ex); lia).
  replace (if 0 <? ey then 0 else 1) with (1 - ey) by (destruct (Z.ltb_spec 0 ey); lia).
  set (gw := w - (1 - sx + (1 - ex))). set (gh := h - (1 - sy + (1 - ey))).
  rewrite (u32_small gw) by (unfold W32; subst gw; lia). rewrite (u32_small gh) by (unfold W32; subst gh; lia).
  rewrite (u32_small (yi + 1 - sy)) by (unfold W32; lia).
  rewrite (row_ptr_origin m inp 0 (yi + 1 - sy) (iw inp) 1) by (auto; try constructor; lia).
  rewrite (row_ptr_origin m out xo yo w h) by (auto; lia).
  set (i0 := 1 - sx) in *. set (j0 := 1 - sy) in *.
  replace (padd (padd (padd (origin inp 0 (yi + 1 - sy) 1) xi) 1) (- sx)) with (px inp (xi + i0) (yi + j0) 0)
    by (rewrite px_gray by assumption; unfold origin; rewrite !padd_padd; f_equal; subst i0 j0; lia).
  replace (origin out xo yo 1) with (px out xo (yo + 0) 0)
    by (rewrite px_gray by assumption; unfold origin; f_equal; lia).
  set (D0 := fun (a b : Z) => b < j0).
  assert (Top : exists t, (if sy =? 0 then memset m (px out xo (yo + 0) 0) 0 w else Ok m) = @Ok mem mem t /\
     filled m t out xo yo w h D0 val).
  { destruct Hsy as [[-> Y0]|[-> Y0]].
    - change (0 =? 0) with true. cbv iota.
      destruct (@filled_memset m out xo yo w h val Wo Go Ro mem m (fun _ _ => False) 0) as (t & Et & Ft).
      + apply filled_start. tauto.
      + lia.
      + intros i Hi. unfold val, edge_pixel. replace (yi + 0 =? 0) with true by lia. rewrite orb_true_r. reflexivity.
      + exists t. split; [exact Et|]. revert Ft. apply filled_weaken. unfold D0. subst j0. intros; lia.
    - change (1 =? 0) with false. cbv iota. exists m. split; [reflexivity|].
      apply filled_start. unfold D0. subst j0. intros; lia. }
  destruct Top as (t0 & E0 & F0). rewrite E0. cbn [bind]. clear E0.
  replace (if sy =? 0 then padd (px out xo (yo + 0) 0) (irs out) else px out xo (yo + 0) 0) with (px out xo (yo + j0) 0).
  2:{ rewrite !px_gray by assumption. subst j0. destruct Hsy as [[-> _]|[-> _]].
      - change (0 =? 0) with true. cbv iota. rewrite padd_padd. f_equal; lia.
      - change (1 =? 0) with false. cbv iota. f_equal; lia. }
  rewrite HT. cbn [bind].
  rewrite (u32_small (gh * irs inp)) by (apply (mul_small gh (ih inp)); subst gh; lia).
  rewrite (walk_iterM gh) by (auto; subst gh; lia).
  set (D := fun j (a b : Z) => b < j0 + j).
  match goal with |- context [iterM _ 0 (fun j => @?g j) t0] =>
    destruct (@iterM_inv mem mem (fun j t => filled m t out xo yo w h (D j) val) g (Z.to_nat gh) 0 t0) as (t1 & E1 & F1) end.
  { revert F0. apply filled_weaken. unfold D, D0. intros; lia. }
  { intros j t Hj Ft. cbv beta. unfold at_, c0, c1. cbn [combine map nth fst snd].
    assert (Hj' : 0 <= j < gh) by lia. clear Hj.
    replace (padd (px out xo (yo + j0) 0) (j * irs out)) with (px out (xo + 0) (yo + (j0 + j)) 0)
      by (rewrite !px_gray by assumption; rewrite padd_padd; f_equal; lia).
    replace (padd (px inp (xi + i0) (yi + j0) 0) (j * irs inp)) with (px inp (xi + i0) (yi + (j0 + j)) 0)
      by (rewrite !px_gray by assumption; rewrite padd_padd; f_equal; lia).
    set (r := j0 + j). assert (Hr : 0 <= r < h) by (subst r gh j0; lia).
    assert (Hr1 : 1 <= yi + r < ih inp - 1) by (subst r gh j0; lia).
    assert (Left : exists t', (if sx =? 0 then store t (px out (xo + 0) (yo + r) 0) 0 else Ok t) = @Ok mem mem t' /\
       filled m t' out xo yo w h (fun a b => b < r \/ (b = r /\ a < i0)) val).
    { destruct Hsx as [[-> X0]|[-> X0]].
      - change (0 =? 0) with true. cbv iota.
        destruct (@filled_store m out xo yo w h val Wo Go Ro mem t _ 0 r 0 Ft) as (t' & Et & F'); try lia.
        + unfold val, edge_pixel. replace (xi + 0 =? 0) with true by lia. reflexivity.
        + exists t'. split; [exact Et|]. revert F'. apply filled_weaken. unfold D. subst r i0. intros; lia.
      - change (1 =? 0) with false. cbv iota. exists t. split; [reflexivity|].
        revert Ft. apply filled_weaken. unfold D. subst r i0. intros; lia. }
    destruct Left as (t2 & E2 & F2). rewrite E2. cbn [bind]. clear E2 Ft t.
    replace (if sx =? 0 then padd (px out (xo + 0) (yo + r) 0) 1 else px out (xo + 0) (yo + r) 0) with (px out (xo + i0) (yo + r) 0).
    2:{ rewrite !px_gray by assumption. subst i0. destruct Hsx as [[-> _]|[-> _]].
        - change (0 =? 0) with true. cbv iota. rewrite padd_padd. f_equal; lia.
        - change (1 =? 0) with false. cbv iota. f_equal; lia. }
    rewrite (walk_iterM gw) by (auto; try (subst gw; lia); rewrite Z.mul_1_r; reflexivity).
    match goal with |- context [iterM _ 0 (fun i => @?g i) t2] =>
      destruct (@iterM_inv mem mem (fun i t => filled m t out xo yo w h (fun a b => b < r \/ (b = r /\ a < i0 + i)) val)
                  g (Z.to_nat gw) 0 t2) as (t3 & E3 & F3) end.
    { revert F2. apply filled_weaken. intros; lia. }
    { intros i t Hi Ft. cbv beta. unfold at_, c0, c1. cbn [combine map nth fst snd].
      assert (Hi' : 0 <= i < gw) by lia. clear Hi.
      replace (padd (px out (xo + i0) (yo + r) 0) (i * 1)) with (px out (xo + (i0 + i)) (yo + r) 0)
        by (rewrite !px_gray by assumption; rewrite padd_padd; f_equal; lia).
      replace (padd (px inp (xi + i0) (yi + r) 0) (i * 1)) with (px inp (xi + (i0 + i)) (yi + r) 0)
        by (rewrite !px_gray by assumption; rewrite padd_padd; f_equal; lia).
      set (c := i0 + i). assert (Hc : 0 <= c < w) by (subst c gw i0; lia).
      assert (Hc1 : 1 <= xi + c < iw inp - 1) by (subst c gw i0; lia).
      pose proof (fl_len _ _ _ _ _ _ _ _ _ Ft) as Lt.
      rewrite Hat; auto. 2:{ apply (wf_same_len m); auto. }
      cbn [bind].
      rewrite (Hext t m inp (xi + c) (yi + r)).
      2:{ intros a b Ha Hb.
          pose proof (filled_input m t inp 0 0 (iw inp) (ih inp) out xo yo w h _ _ Ft Gi Go Dj (xi + c + a) (yi + r + b)) as Q.
          rewrite !Z.add_0_l in Q. apply Q; lia. }
      destruct (HG (xi + c) (yi + r) Hc1 Hr1) as [G1 G2].
      unfold table_get. rewrite (proj2 (Z.leb_le 0 (Z.abs (fst _))) (Z.abs_nonneg _)).
      rewrite (proj2 (Z.leb_le 0 (Z.abs (snd _))) (Z.abs_nonneg _)).
      rewrite (proj2 (Z.ltb_lt _ _) G1), (proj2 (Z.ltb_lt _ _) G2). cbn [andb bind].
      destruct (@filled_store m out xo yo w h val Wo Go Ro mem t _ c r
                  (T (Z.abs (fst (G m inp (xi + c) (yi + r)))) (Z.abs (snd (G m inp (xi + c) (yi + r))))) Ft) as (t' & Et & F'); try lia.
      - unfold val. replace (edge_pixel inp xi yi w h c r) with false; [reflexivity|].
        symmetry. unfold edge_pixel. apply not_true_iff_false. rewrite !orb_true_iff, !andb_true_iff.
        subst c gw i0 r gh j0. lia.
      - exists t'. split; [exact Et|]. revert F'. apply filled_weaken. subst c. intros; lia. }
    rewrite E3. cbn [bind]. rewrite Z2Nat.id in F3 by (subst gw; lia). rewrite Z.add_0_l in F3.
    replace (padd (px out (xo + i0) (yo + r) 0) gw) with (px out (xo + (i0 + gw)) (yo + r) 0)
      by (rewrite !px_gray by assumption; rewrite padd_padd; f_equal; lia).
    destruct Hex as [[-> X0]|[-> X0]].
    - change (0 =? 0) with true. cbv iota.
      destruct (@filled_store m out xo yo w h val Wo Go Ro mem t3 _ (i0 + gw) r 0 F3) as (t' & Et & F'); try (subst gw i0; lia).
      + unfold val, edge_pixel. replace ((i0 + gw =? w - 1) && (iw inp <=? xi + w + 1)) with true by (subst gw i0; lia).
        rewrite orb_true_r. reflexivity.
      + exists t'. split; [exact Et|]. revert F'. apply filled_weaken. unfold D. subst r gw i0. intros; lia.
    - change (1 =? 0) with false. cbv iota. exists t3. split; [reflexivity|].
      revert F3. apply filled_weaken. unfold D. subst r gw i0. intros; lia. }
  rewrite E1. cbn [bind]. rewrite Z2Nat.id in F1 by (subst gh; lia). rewrite Z.add_0_l in F1.
  replace (padd (px out xo (yo + j0) 0) (gh * irs out)) with (px out xo (yo + (j0 + gh)) 0)
    by (rewrite !px_gray by assumption; rewrite padd_padd; f_equal; lia).
  destruct Hey as [[-> Y0]|[-> Y0]].
  - change (0 =? 0) with true. cbv iota.
    destruct (@filled_memset m out xo yo w h val Wo Go Ro mem t1 _ (j0 + gh) F1) as (t & Et & Ft).
    + subst gh j0. lia.
    + intros i Hi. unfold val, edge_pixel.
      replace ((j0 + gh =? h - 1) && (ih inp <=? yi + h + 1)) with true by (subst gh j0; lia).
      rewrite orb_true_r. reflexivity.
    + apply (filled_writes m out xo yo w h val Go _ t _ Et Ft). unfold D. subst gh j0. intros; lia.
  - change (1 =? 0) with false. cbv iota.
    apply (filled_writes m out xo yo w h val Go _ t1 _ eq_refl F1). unfold D. subst gh j0. intros; lia.
Qed.
End GRADIENT.
