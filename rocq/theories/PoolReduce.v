(** The multi-threaded reductions combine the results of the strips. *)
From Coq Require Import ZArith List Bool Lia Arith.
From Verif Require Import Base Image Spec BaseProofs ImgFun ImgLemmas ImgProofs ConvProofs ReduceProofs SafeProofs FuncPool FuncPoolProofs StripProofs TileProofs.
Import ListNotations.
Open Scope Z_scope.

Ltac Zify.zify_post_hook ::= Z.div_mod_to_equations.

Definition lsum (l : list Z) : Z := fold_right Z.add 0 l.

Lemma results_ok {A S} (f : S -> res mem A) (g : S -> A) ss :
  (forall s, In s ss -> f s = Ok (g s)) -> results f ss = Ok (map g ss).
Proof.
  induction ss as [|s ss IH]; intros H; [reflexivity|]. cbn [results map].
  rewrite (H s (or_introl eq_refl)). cbn [bind]. rewrite IH by (intros; apply H; right; assumption). reflexivity.
Qed.

Lemma zsum_split a b f : 0 <= a -> 0 <= b -> zsum (a + b) f = zsum a f + zsum b (fun k => f (a + k)).
Proof.
  intros Ha Hb. pattern b. apply natlike_ind; auto.
  - rewrite Z.add_0_r, zsum_0. lia.
  - intros k Hk IH. unfold Z.succ. rewrite Z.add_assoc, !zsum_S by lia. lia.
Qed.

Lemma chain_sum f a l b : chain a l b ->
  lsum (map (fun s => zsum (snd s) (fun j => f (fst s + j))) l) = zsum (b - a) (fun j => f (a + j)).
Proof.
  induction 1 as [a|a n l b Hn Hc IH].
  - cbn. rewrite Z.sub_diag. reflexivity.
  - cbn [map lsum fold_right fst snd]. fold lsum. unfold lsum in IH. rewrite IH.
    pose proof (chain_le _ _ _ Hc).
    replace (b - a) with (n + (b - (a + n))) by ring. rewrite (zsum_split n) by lia. f_equal.
    apply zsum_ext. intros k _. f_equal. ring.
Qed.
Lemma chain_sum0 f l b : chain 0 l b ->
  lsum (map (fun s => zsum (snd s) (fun j => f (fst s + j))) l) = zsum b f.
Proof. intros H. rewrite (chain_sum f _ _ _ H). rewrite Z.sub_0_r. reflexivity. Qed.

Lemma getSum_ok l : getSum l = u32 (lsum l).
Proof.
  unfold getSum. assert (H : forall l t, 0 <= t < W32 -> fold_left (fun total v => u32 (total + v)) l t = u32 (t + lsum l)).
  { clear l. induction l as [|v l IH]; intros t Ht; cbn [fold_left lsum fold_right].
    - rewrite Z.add_0_r, u32_small by lia. reflexivity.
    - rewrite IH by apply u32_range. unfold u32. rewrite Z.add_mod_idemp_l by (unfold W32; lia).
      f_equal. change (fold_right Z.add 0 l) with (lsum l). ring. }
  rewrite H by (unfold W32; lia). reflexivity.
Qed.

Lemma lsum_mod l : u32 (lsum (map u32 l)) = u32 (lsum l).
Proof.
  induction l as [|a l IH]; [reflexivity|]. cbn [map lsum fold_right].
  change (fold_right Z.add 0 (map u32 l)) with (lsum (map u32 l)). change (fold_right Z.add 0 l) with (lsum l).
  unfold u32 in *. rewrite Z.add_mod by (unfold W32; lia). rewrite IH, Z.mod_mod by (unfold W32; lia).
  rewrite <- Z.add_mod by (unfold W32; lia). reflexivity.
Qed.

(** Rows or columns. *)
Lemma calc_shape2 w h n : 0 < w -> 0 < h -> 0 < n ->
  (exists l, calc_strips w h n = map (fun s => mkStrip 0 (fst s) w (snd s)) l /\ chain 0 l h) \/
  (exists l, calc_strips w h n = map (fun s => mkStrip (fst s) 0 (snd s) h) l /\ chain 0 l w).
Proof.
  intros Hw Hh Hn. destruct (calc_count_ok w h n Hw Hh Hn) as [H1 _].
  unfold calc_strips, rel_strips. destruct (calc_count w h n) as [cnt ax]. cbn [fst snd] in *. destruct ax.
  - left. eexists. split; [reflexivity|]. apply axis_cuts_chain. exact H1.
  - right. eexists. split; [reflexivity|]. apply axis_cuts_chain. exact H1.
Qed.

Lemma tile_sum w h n (f : Z -> Z -> Z) : 0 < w -> 0 < h -> 0 < n ->
  lsum (map (fun s => zsum (sh s) (fun j => zsum (sw s) (fun i => f (sx s + i) (sy s + j)))) (calc_strips w h n))
  = zsum h (fun j => zsum w (fun i => f i j)).
Proof.
  intros Hw Hh Hn. destruct (calc_shape2 w h n Hw Hh Hn) as [(l & -> & Hc)|(l & -> & Hc)]; rewrite map_map; cbn [sx sy sw sh].
  - rewrite <- (chain_sum0 (fun j => zsum w (fun i => f i j)) l h Hc). reflexivity.
  - rewrite zsum_swap. rewrite <- (chain_sum0 (fun i => zsum h (fun j => f i j)) l w Hc). f_equal.
    apply map_ext. intros s. rewrite zsum_swap. reflexivity.
Qed.

Lemma strip_px m im x y s i j c :
  pixel m im (sx (place x y s) + i) (sy (place x y s) + j) c = pixel m im (x + (sx s + i)) (y + (sy s + j)) c.
Proof. unfold place; cbn [sx sy]. rewrite !Z.add_assoc. reflexivity. Qed.

Lemma pool_Sum_ok n m im x y w h : 0 < n -> area m im x y w h -> icc im = 1 ->
  pool_Sum n m im x y w h = Sum m im x y w h.
Proof.
  intros Hn A C. pose proof A as [W R]. assert (Hwh : 0 < w /\ 0 < h) by (destruct R; auto).
  destruct (calc_facts w h n) as (_ & _ & In_); try lia.
  unfold pool_Sum. rewrite (valid_roi_ok m) by assumption. rewrite has_threads_true by assumption.
  rewrite (area_calc m im) by assumption. cbn [bind].
  rewrite (results_ok _ (fun s => u32 (zsum (sh s) (fun j => zsum (sw s) (fun i => pixel m im (sx s + i) (sy s + j) 0))))).
  - cbn [bind]. rewrite getSum_ok. rewrite Sum_value by assumption. f_equal.
    rewrite <- (tile_sum w h n (fun i j => pixel m im (x + i) (y + j) 0)) by lia.
    symmetry. rewrite <- lsum_mod. rewrite !map_map. f_equal. f_equal. apply map_ext. intros s.
    f_equal. change (sh (place x y s)) with (sh s). change (sw (place x y s)) with (sw s). symmetry.
    apply zsum_ext. intros j _. apply zsum_ext. intros i _. apply strip_px.
  - intros s Hs. apply in_map_iff in Hs as (t & <- & Ht). specialize (In_ t Ht).
    apply Sum_value; auto. unfold place; cbn [sx sy sw sh]. eapply sub_roi; eauto; lia.
Qed.

(** ** Vectors *)

Definition in32 (v : list Z) : Prop := forall k, 0 <= k -> 0 <= zth v k < W32.

Lemma zth_beyond v k : Z.of_nat (length v) <= k -> zth v k = 0.
Proof. intros H. unfold zth. apply nth_overflow. lia. Qed.

Lemma vec_add_length a b : length b = length a -> length (vec_add a b) = length a.
Proof. intros H. unfold vec_add, zip2. rewrite map_length, combine_length. lia. Qed.
Lemma vec_add_nth a b k : length b = length a -> 0 <= k -> zth (vec_add a b) k = u32 (zth a k + zth b k).
Proof.
  intros H Hk. unfold vec_add, zip2, zth. revert b H k Hk.
  induction a as [|x a IH]; intros [|y b] H k Hk; try discriminate.
  - cbn [combine map]. destruct (Z.to_nat k); reflexivity.
  - cbn [combine map fst snd]. destruct (Z.eq_dec k 0) as [->|Hne]; [reflexivity|].
    replace (Z.to_nat k) with (S (Z.to_nat (k - 1))) by lia. cbn [nth]. apply IH; [injection H; auto|lia].
Qed.

Lemma fold_vec_add l : forall a, (forall v, In v l -> length v = length a) -> in32 a ->
  length (fold_left vec_add l a) = length a /\
  forall k, 0 <= k -> zth (fold_left vec_add l a) k = u32 (zth a k + lsum (map (fun v => zth v k) l)).
Proof.
  induction l as [|b l IH]; intros a Hl Ha; cbn [fold_left map lsum fold_right].
  - split; auto. intros k Hk. rewrite Z.add_0_r, u32_small by (apply Ha; lia). reflexivity.
  - assert (Hb : length b = length a) by (apply Hl; left; reflexivity).
    destruct (IH (vec_add a b)) as [L V].
    + intros v Hv. rewrite vec_add_length by assumption. apply Hl. right. exact Hv.
    + intros k Hk. rewrite vec_add_nth by (auto; lia). apply u32_range.
    + split; [rewrite L; apply vec_add_length; assumption|]. intros k Hk. rewrite V by assumption.
      rewrite vec_add_nth by (auto; lia).
      change (fold_right Z.add 0 (map (fun v => zth v k) l)) with (lsum (map (fun v => zth v k) l)).
      unfold u32. rewrite Z.add_mod_idemp_l by (unfold W32; lia). f_equal. ring.
Qed.

Lemma getArray_ok m l N : l <> [] -> (forall v, In v l -> length v = N /\ in32 v) ->
  exists r, getArray m l = Ok r /\ length r = N /\
    forall k, 0 <= k -> zth r k = u32 (lsum (map (fun v => zth v k) l)).
Proof.
  intros Hne Hl. destruct l as [|a l]; [congruence|].
  destruct (Hl a (or_introl eq_refl)) as [La Ha]. cbn [getArray].
  replace (forallb _ (a :: l)) with true.
  2:{ symmetry. apply forallb_forall. intros v Hv. apply Nat.eqb_eq. rewrite La. apply Hl. exact Hv. }
  destruct (fold_vec_add l a) as [L V]; auto.
  { intros v Hv. rewrite La. apply Hl. right. exact Hv. }
  eexists. split; [reflexivity|]. split; [lia|]. intros k Hk. rewrite V by assumption. reflexivity.
Qed.

Lemma zth_ext v1 v2 : length v1 = length v2 -> (forall k, 0 <= k < Z.of_nat (length v1) -> zth v1 k = zth v2 k) -> v1 = v2.
Proof.
  intros L H. apply (nth_ext _ _ 0 0 L). intros k Hk. specialize (H (Z.of_nat k) ltac:(lia)).
  unfold zth in H. rewrite Nat2Z.id in H. exact H.
Qed.

Lemma calc_nonempty w h n : 0 < w -> 0 < h -> 0 < n -> calc_strips w h n <> [].
Proof. intros Hw Hh Hn E. pose proof (calc_strips_length w h n Hw Hh Hn). rewrite E in H. cbn in H. lia. Qed.

(** Choose the results of all strips. *)
Lemma choose_results {A S} (f : S -> res mem A) ss (P : S -> A -> Prop) :
  (forall s, In s ss -> exists a, f s = Ok a /\ P s a) ->
  exists l, results f ss = Ok l /\ Forall2 P ss l.
Proof.
  induction ss as [|s ss IH]; intros H; [exists []; auto|].
  destruct (H s (or_introl eq_refl)) as (a & Ea & Pa).
  destruct IH as (l & El & Pl); [intros; apply H; right; assumption|].
  exists (a :: l). cbn [results]. rewrite Ea. cbn [bind]. rewrite El. auto.
Qed.
Lemma Forall2_lsum {S} (P : S -> list Z -> Prop) (g : S -> Z) k ss l :
  Forall2 P ss l -> (forall s v, In s ss -> P s v -> zth v k = g s) ->
  lsum (map (fun v => zth v k) l) = lsum (map g ss).
Proof.
  induction 1 as [|s v ss l Hp Hf IH]; intros H; [reflexivity|]. cbn [map lsum fold_right].
  rewrite (H s v (or_introl eq_refl) Hp). f_equal. apply IH. intros; apply H; auto; right; assumption.
Qed.
Lemma Forall2_in_r {S A} (P : S -> A -> Prop) ss l a : Forall2 P ss l -> In a l -> exists s, In s ss /\ P s a.
Proof.
  induction 1 as [|s b ss l Hp Hf IH]; intros Hin; [destruct Hin|]. destruct Hin as [->|Hin].
  - exists s. split; [left; reflexivity|exact Hp].
  - destruct (IH Hin) as (s' & H1 & H2). exists s'. split; [right; exact H1|exact H2].
Qed.

Lemma zcount_bound n P : 0 <= n -> 0 <= zcount n P <= n.
Proof.
  intros Hn. unfold zcount. pose proof (zsum_bound n (fun k => if P k then 1 else 0) 0 1 Hn) as H.
  assert (forall k, 0 <= k < n -> 0 <= (if P k then 1 else 0) <= 1) by (intros k _; destruct (P k); lia).
  specialize (H H0). lia.
Qed.

Lemma pool_Histogram_ok n m im x y w h : 0 < n -> area m im x y w h -> icc im = 1 -> roi_bytes m im x y w h ->
  pool_Histogram n m im x y w h = Histogram m im x y w h.
Proof.
  intros Hn A C B. pose proof A as [W R]. assert (Hwh : 0 < w /\ 0 < h) by (destruct R; auto).
  destruct (calc_facts w h n) as (_ & _ & In_); try lia.
  unfold pool_Histogram. rewrite (valid_roi_ok m) by assumption. rewrite has_threads_true by assumption.
  rewrite (area_calc m im) by assumption. cbn [bind].
  set (cnt := fun v a b w' h' => zsum h' (fun j => zcount w' (fun i => pixel m im (a + i) (b + j) 0 =? v))).
  destruct (choose_results (fun s => Histogram m im (sx s) (sy s) (sw s) (sh s)) (map (place x y) (calc_strips w h n))
     (fun s hist => length hist = 256%nat /\ forall v, 0 <= v < 256 -> zth hist v = cnt v (sx s) (sy s) (sw s) (sh s)))
    as (l & El & Fl).
  { intros s Hs. apply in_map_iff in Hs as (t & <- & Ht). specialize (In_ t Ht).
    apply Histogram_value; auto.
    - unfold place; cbn [sx sy sw sh]. eapply sub_roi; eauto; lia.
    - intros i j c (Hi & Hj & Hc). unfold place in *; cbn [sx sy sw sh] in *. rewrite <- !Z.add_assoc. apply B; unfold inside; lia. }
  rewrite El. cbn [bind].
  assert (Hl32 : forall v, In v l -> length v = 256%nat /\ in32 v).
  { intros v Hv. destruct (Forall2_in_r _ _ _ _ Fl Hv) as (s & Hs & L & V). split; [exact L|].
    apply in_map_iff in Hs as (t & <- & Ht). specialize (In_ t Ht).
    intros k Hk. destruct (Z_lt_le_dec k 256).
    - rewrite V by lia. unfold cnt.
      pose proof (gray_area m im x y w h W R). rewrite C, Z.mul_1_r in H.
      assert (0 <= zsum (sh t) (fun j => zcount (sw t) (fun i => pixel m im (x + sx t + i) (y + sy t + j) 0 =? k)) <= sh t * sw t).
      { pose proof (zsum_bound (sh t) (fun j => zcount (sw t) (fun i => pixel m im (x + sx t + i) (y + sy t + j) 0 =? k)) 0 (sw t)) as Hb.
        rewrite Z.mul_0_r in Hb. apply Hb; [lia|]. intros j _. apply zcount_bound. lia. }
      unfold place; cbn [sx sy sw sh]. nia.
    - rewrite zth_beyond by lia. unfold W32. lia. }
  destruct (getArray_ok m l 256) as (r & Er & Lr & Vr); auto.
  { intros ->. inversion Fl as [E0|]. symmetry in E0. apply map_eq_nil in E0. apply (calc_nonempty w h n); auto; lia. }
  rewrite Er. destruct (Histogram_value m im x y w h W C R B) as (hist & Eh & Lh & Vh). rewrite Eh. f_equal.
  apply zth_ext; [lia|]. intros k Hk. rewrite Lr in Hk. rewrite Vr by lia.
  rewrite (Forall2_lsum _ (fun s => cnt k (sx s) (sy s) (sw s) (sh s)) k _ _ Fl).
  2:{ intros s v _ [_ V]. apply V. lia. }
  rewrite Vh by lia. rewrite map_map.
  transitivity (u32 (zsum h (fun j => zcount w (fun i => pixel m im (x + i) (y + j) 0 =? k)))).
  - f_equal. unfold zcount.
    rewrite <- (tile_sum w h n (fun i j => if pixel m im (x + i) (y + j) 0 =? k then 1 else 0)) by lia.
    f_equal. apply map_ext. intros s. unfold cnt, zcount. change (sh (place x y s)) with (sh s). change (sw (place x y s)) with (sw s).
    apply zsum_ext. intros j _. apply zsum_ext. intros i _. rewrite strip_px. reflexivity.
  - apply u32_small. pose proof (gray_area m im x y w h W R). rewrite C, Z.mul_1_r in H.
    pose proof (zsum_bound h (fun j => zcount w (fun i => pixel m im (x + i) (y + j) 0 =? k)) 0 w) as Hb.
    assert (forall j, 0 <= j < h -> 0 <= zcount w (fun i => pixel m im (x + i) (y + j) 0 =? k) <= w) by (intros; apply zcount_bound; lia).
    specialize (Hb ltac:(lia) H0). nia.
Qed.

(** ** Projection profiles *)

(** [f] cut along the chain [l] and put together again. *)
Lemma concat_chain a l b (f : Z -> Z) vs : chain a l b ->
  Forall2 (fun s v => length v = Z.to_nat (snd s) /\ forall k, 0 <= k < snd s -> zth v k = f (fst s + k)) l vs ->
  length (concat vs) = Z.to_nat (b - a) /\ forall k, 0 <= k < b - a -> zth (concat vs) k = f (a + k).
Proof.
  intros Hc. revert vs. induction Hc as [a|a n l b Hn Hc IH]; intros vs Hf; inversion Hf; subst; cbn [concat].
  - rewrite Z.sub_diag. split; [reflexivity|]. intros; lia.
  - destruct H1 as [L V]. cbn [fst snd] in *. destruct (IH _ H3) as [L' V']. pose proof (chain_le _ _ _ Hc).
    rewrite app_length, L, L'. split; [lia|]. intros k Hk. unfold zth in *.
    destruct (Z_lt_le_dec k n) as [Hlt|Hge].
    + rewrite app_nth1 by lia. apply V. lia.
    + rewrite app_nth2 by lia. rewrite L. replace (Z.to_nat k - Z.to_nat n)%nat with (Z.to_nat (k - n)) by lia.
      rewrite V' by lia. f_equal. ring.
Qed.
Lemma Forall2_map_l {S T A} (P : S -> A -> Prop) (g : T -> S) l vs :
  Forall2 P (map g l) vs -> Forall2 (fun t a => P (g t) a) l vs.
Proof.
  revert vs. induction l as [|t l IH]; intros vs H; inversion H; subst; constructor; auto.
Qed.
Lemma Forall2_weak {S A} (P Q : S -> A -> Prop) l vs :
  Forall2 P l vs -> (forall s a, In s l -> P s a -> Q s a) -> Forall2 Q l vs.
Proof.
  induction 1; intros H'; constructor.
  - apply H'; [left; reflexivity|assumption].
  - apply IHForall2. intros. apply H'; [right|]; assumption.
Qed.

(** A sum over one axis ([across] = true) or its parts ([across] = false). *)
Lemma projection_sum m l h vs (size : Z) (f : Z -> Z -> Z) :
  0 < size -> chain 0 l h -> l <> [] ->
  Forall2 (fun s v => length v = Z.to_nat size /\
             forall k, 0 <= k < size -> zth v k = u32 (zsum (snd s) (fun j => f k (fst s + j)))) l vs ->
  exists r, getProjection m size vs = Ok r /\ length r = Z.to_nat size /\
    forall k, 0 <= k < size -> zth r k = u32 (zsum h (fun j => f k j)).
Proof.
  intros Hs Hc Hne Hf.
  assert (H32 : forall v, In v vs -> length v = Z.to_nat size /\ in32 v).
  { intros v Hv. destruct (Forall2_in_r _ _ _ _ Hf Hv) as (s & _ & L & V). split; [exact L|].
    intros k Hk. destruct (Z_lt_le_dec k size); [rewrite V by lia; apply u32_range|].
    rewrite zth_beyond by lia. unfold W32. lia. }
  assert (Hvs : vs <> []) by (intros ->; inversion Hf; congruence).
  destruct (getArray_ok m vs (Z.to_nat size) Hvs H32) as (r & Er & Lr & Vr).
  exists r. split; [|split; [exact Lr|]].
  - unfold getProjection. destruct vs as [|a vs]; [congruence|].
    destruct (H32 a (or_introl eq_refl)) as [La _]. rewrite La, Z2Nat.id, Z.eqb_refl by lia. exact Er.
  - intros k Hk. rewrite Vr by lia.
    rewrite (Forall2_lsum _ (fun s => u32 (zsum (snd s) (fun j => f k (fst s + j)))) k _ _ Hf) by (intros s v _ [_ V]; apply V; lia).
    rewrite <- (map_map (fun s => zsum (snd s) (fun j => f k (fst s + j))) u32). rewrite lsum_mod. f_equal.
    apply (chain_sum0 (f k) l h Hc).
Qed.

Lemma chain_inv a p k l b : chain a ((p, k) :: l) b -> p = a /\ 0 < k /\ chain (a + k) l b.
Proof. intros H. inversion H; subst. auto. Qed.
Lemma chain_end a l b : chain a l b -> b <= a -> l = [].
Proof. intros H Hb. inversion H as [|? k l' ? Hk Hc]; subst; auto. pose proof (chain_le _ _ _ Hc). lia. Qed.
Lemma projection_concat m l size vs (f : Z -> Z) :
  0 < size -> chain 0 l size -> l <> [] -> (forall k, 0 <= k < size -> 0 <= f k < W32) ->
  Forall2 (fun s v => length v = Z.to_nat (snd s) /\ forall k, 0 <= k < snd s -> zth v k = f (fst s + k)) l vs ->
  exists r, getProjection m size vs = Ok r /\ length r = Z.to_nat size /\
    forall k, 0 <= k < size -> zth r k = f k.
Proof.
  intros Hs Hc Hne H32 Hf. destruct (concat_chain 0 l size f vs Hc Hf) as [Lc Vc]. rewrite Z.sub_0_r in *.
  unfold getProjection. destruct vs as [|a vs]; [inversion Hf; congruence|].
  destruct (Z.eqb_spec size (Z.of_nat (length a))) as [E|E].
  - (* one strip *)
    assert (vs = []) as ->.
    { inversion Hf as [|s ? l' ? [La _] Hf' E1 E2]. rewrite <- E1 in Hc. destruct s as [p k]. cbn [fst snd] in La.
      apply chain_inv in Hc as (-> & Hk & Hc). assert (k = size) by lia. apply chain_end in Hc; [|lia].
      rewrite Hc in Hf'. inversion Hf'. reflexivity. }
    cbn [concat] in *. rewrite app_nil_r in *.
    destruct (getArray_ok m [a] (Z.to_nat size)) as (r & Er & Lr & Vr); [discriminate| |].
    { intros v [<-|[]]. split; [lia|]. intros k Hk. destruct (Z_lt_le_dec k size).
      - rewrite Vc by lia. apply H32. lia.
      - rewrite zth_beyond by lia. unfold W32. lia. }
    exists r. split; [exact Er|]. split; [exact Lr|]. intros k Hk. rewrite Vr by lia. cbn [map lsum fold_right].
    rewrite Z.add_0_r, Vc by lia. apply u32_small. apply H32. lia.
  - exists (concat (a :: vs)). rewrite Lc, Z2Nat.id, Z.eqb_refl by lia. split; [reflexivity|]. split; [auto|exact Vc].
Qed.

Lemma pool_Projection_vertical n m im x y w h : 0 < n -> area m im x y w h ->
  pool_ProjectionProfile n m im x y w h false = ProjectionProfile m im x y w h false.
Proof.
  intros Hn A. pose proof A as [W R]. assert (Hwh : 0 < w /\ 0 < h) by (destruct R; auto).
  destruct (calc_facts w h n) as (_ & _ & In_); try lia.
  unfold pool_ProjectionProfile. rewrite (valid_roi_ok m) by assumption. rewrite has_threads_true by assumption.
  rewrite (area_calc m im) by assumption. cbn [bind].
  destruct (choose_results (fun s => ProjectionProfile m im (sx s) (sy s) (sw s) (sh s) false) (map (place x y) (calc_strips w h n))
     (fun s p => length p = Z.to_nat (sh s) /\ forall j, 0 <= j < sh s ->
        zth p j = u32 (zsum (sw s) (fun i => zsum (icc im) (fun c => pixel m im (sx s + i) (sy s + j) c)))))
    as (l & El & Fl).
  { intros s Hs. apply in_map_iff in Hs as (t & <- & Ht). specialize (In_ t Ht).
    apply Projection_vertical; auto. unfold place; cbn [sx sy sw sh]. eapply sub_roi; eauto; lia. }
  rewrite El. cbn [bind]. apply Forall2_map_l in Fl.
  destruct (Projection_vertical m im x y w h W R) as (p & Ep & Lp & Vp). rewrite Ep.
  assert (G : exists r, getProjection m h l = Ok r /\ length r = Z.to_nat h /\
            forall k, 0 <= k < h -> zth r k = u32 (zsum w (fun i => zsum (icc im) (fun c => pixel m im (x + i) (y + k) c)))).
  { destruct (calc_shape2 w h n) as [(cs & E & Hc)|(cs & E & Hc)]; try lia;
      rewrite E in Fl; apply Forall2_map_l in Fl.
    - apply (projection_concat m cs h l (fun k => u32 (zsum w (fun i => zsum (icc im) (fun c => pixel m im (x + i) (y + k) c))))); auto; try lia.
      + intros ->. apply (calc_nonempty w h n); auto; lia.
      + intros. apply u32_range.
      + eapply Forall2_weak; [exact Fl|]. intros [a k] v Hin [L V]. unfold place in L, V; cbn [sx sy sw sh fst snd] in *.
        split; [exact L|]. intros j Hj. rewrite V by lia. f_equal. apply zsum_ext. intros i _. apply zsum_ext. intros c _.
        f_equal; ring.
    - apply (projection_sum m cs w l h (fun k i => zsum (icc im) (fun c => pixel m im (x + i) (y + k) c))); auto; try lia.
      + intros ->. apply (calc_nonempty w h n); auto; lia.
      + eapply Forall2_weak; [exact Fl|]. intros [a k] v Hin [L V]. unfold place in L, V; cbn [sx sy sw sh fst snd] in *.
        split; [exact L|]. intros j Hj. rewrite V by lia. f_equal. apply zsum_ext. intros i _. apply zsum_ext. intros c _.
        f_equal; ring. }
  destruct G as (r & Er & Lr & Vr). rewrite Er. f_equal. apply zth_ext; [lia|].
  intros k Hk. rewrite Vr, Vp by lia. reflexivity.
Qed.

Lemma pool_Projection_horizontal n m im x y w h : 0 < n -> area m im x y w h -> icc im = 1 ->
  pool_ProjectionProfile n m im x y w h true = ProjectionProfile m im x y w h true.
Proof.
  intros Hn A C. pose proof A as [W R]. assert (Hwh : 0 < w /\ 0 < h) by (destruct R; auto).
  destruct (calc_facts w h n) as (_ & _ & In_); try lia.
  unfold pool_ProjectionProfile. rewrite (valid_roi_ok m) by assumption. rewrite has_threads_true by assumption.
  rewrite (area_calc m im) by assumption. cbn [bind].
  destruct (choose_results (fun s => ProjectionProfile m im (sx s) (sy s) (sw s) (sh s) true) (map (place x y) (calc_strips w h n))
     (fun s p => length p = Z.to_nat (sw s) /\ forall i, 0 <= i < sw s ->
        zth p i = u32 (zsum (sh s) (fun j => pixel m im (sx s + i) (sy s + j) 0))))
    as (l & El & Fl).
  { intros s Hs. apply in_map_iff in Hs as (t & <- & Ht). specialize (In_ t Ht).
    destruct (Projection_horizontal m im (sx (place x y t)) (sy (place x y t)) (sw (place x y t)) (sh (place x y t)) W) as (p & Ep & Lp & Vp).
    { unfold place; cbn [sx sy sw sh]. eapply sub_roi; eauto; lia. }
    rewrite C, Z.mul_1_r in Lp. exists p. split; [exact Ep|]. split; [exact Lp|].
    intros i Hi. rewrite <- Vp by lia. f_equal. rewrite C. ring. }
  rewrite El. cbn [bind]. apply Forall2_map_l in Fl.
  destruct (Projection_horizontal m im x y w h W R) as (p & Ep & Lp & Vp). rewrite Ep. rewrite C, Z.mul_1_r in Lp.
  assert (G : exists r, getProjection m w l = Ok r /\ length r = Z.to_nat w /\
            forall k, 0 <= k < w -> zth r k = u32 (zsum h (fun j => pixel m im (x + k) (y + j) 0))).
  { destruct (calc_shape2 w h n) as [(cs & E & Hc)|(cs & E & Hc)]; try lia;
      rewrite E in Fl; apply Forall2_map_l in Fl.
    - apply (projection_sum m cs h l w (fun k j => pixel m im (x + k) (y + j) 0)); auto; try lia.
      + intros ->. apply (calc_nonempty w h n); auto; lia.
      + eapply Forall2_weak; [exact Fl|]. intros [a k] v Hin [L V]. unfold place in L, V; cbn [sx sy sw sh fst snd] in *.
        split; [exact L|]. intros j Hj. rewrite V by lia. f_equal. apply zsum_ext. intros i _. f_equal; ring.
    - apply (projection_concat m cs w l (fun k => u32 (zsum h (fun j => pixel m im (x + k) (y + j) 0)))); auto; try lia.
      + intros ->. apply (calc_nonempty w h n); auto; lia.
      + intros. apply u32_range.
      + eapply Forall2_weak; [exact Fl|]. intros [a k] v Hin [L V]. unfold place in L, V; cbn [sx sy sw sh fst snd] in *.
        split; [exact L|]. intros j Hj. rewrite V by lia. f_equal. apply zsum_ext. intros i _. f_equal; ring. }
  destruct G as (r & Er & Lr & Vr). rewrite Er. f_equal. apply zth_ext; [lia|].
  intros k Hk. rewrite Vr by lia. rewrite <- Vp by lia. f_equal. rewrite C. ring.
Qed.

Lemma pool_IsEqual_ok n m in1 x1 y1 in2 x2 y2 w h :
  0 < n -> area m in1 x1 y1 w h -> area m in2 x2 y2 w h -> icc in1 = icc in2 ->
  pool_IsEqual n m in1 x1 y1 in2 x2 y2 w h = IsEqual m in1 x1 y1 in2 x2 y2 w h.
Proof.
  intros Hn A1 A2 C. pose proof A1 as [W1 R1]. pose proof A2 as [W2 R2].
  assert (Hwh : 0 < w /\ 0 < h) by (destruct R1; auto).
  destruct (calc_facts w h n) as (T & _ & In_); try lia.
  unfold pool_IsEqual, valid_roi2. rewrite !(valid_roi_ok m) by assumption. cbn [andb]. rewrite has_threads_true by assumption.
  rewrite (area_calc m in1) by assumption. rewrite (area_calc m in2) by assumption. cbn [bind]. rewrite combine_map.
  destruct (choose_results (fun q => IsEqual m in1 (sx (fst q)) (sy (fst q)) in2 (sx (snd q)) (sy (snd q)) (sw (fst q)) (sh (fst q)))
     (map (fun s => (place x1 y1 s, place x2 y2 s)) (calc_strips w h n))
     (fun q b => b = true <-> forall i j c, inside (sw (fst q)) (sh (fst q)) (icc in1) i j c ->
        pixel m in1 (sx (fst q) + i) (sy (fst q) + j) c = pixel m in2 (sx (snd q) + i) (sy (snd q) + j) c)) as (l & El & Fl).
  { intros s Hs. apply in_map_iff in Hs as (t & <- & Ht). specialize (In_ t Ht). cbn [fst snd].
    apply IsEqual_value; auto; unfold place; cbn [sx sy sw sh]; eapply sub_roi; eauto; lia. }
  rewrite El. cbn [bind]. apply Forall2_map_l in Fl.
  destruct (IsEqual_value m in1 x1 y1 in2 x2 y2 w h W1 W2 C R1 R2) as (b & Eb & Hb). rewrite Eb. f_equal.
  assert (Hall : allEqual l = true <-> forall s, In s (calc_strips w h n) -> forall i j c, inside (sw s) (sh s) (icc in1) i j c ->
      pixel m in1 (x1 + (sx s + i)) (y1 + (sy s + j)) c = pixel m in2 (x2 + (sx s + i)) (y2 + (sy s + j)) c).
  { clear - Fl. unfold allEqual. induction Fl as [|s v ss vs Hp Hf IH]; cbn [forallb].
    - split; auto. intros _ s [].
    - rewrite andb_true_iff, IH, Hp. cbn [fst snd]. unfold place; cbn [sx sy sw sh]. split.
      + intros [H1 H2] t [<-|Ht]; [|auto]. intros i j c Hin. rewrite !Z.add_assoc. apply H1. exact Hin.
      + intros H. split; [|intros t Ht; apply H; right; exact Ht].
        intros i j c Hin. rewrite <- !Z.add_assoc. apply (H s); [left; reflexivity|exact Hin]. }
  apply eq_true_iff_eq. rewrite Hall, Hb. split.
  - intros H i j c (Hi & Hj & Hc). destruct T as (_ & T2 & _). destruct (T2 i j) as (k & s & Hk & Hcov); try lia.
    destruct Hcov as [K1 K2].
    specialize (H s (nth_error_In _ _ Hk) (i - sx s) (j - sy s) c ltac:(unfold inside; lia)).
    replace (sx s + (i - sx s)) with i in H by ring. replace (sy s + (j - sy s)) with j in H by ring. exact H.
  - intros H s Hs i j c (Hi & Hj & Hc). specialize (In_ s Hs). apply H. unfold inside. lia.
Qed.
