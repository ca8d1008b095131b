(** Proofs about the functions that read images and return values. *)
From Coq Require Import ZArith List Bool Lia.
From Verif Require Import Base Image Spec BaseProofs ImgFun ImgLemmas ImgProofs ConvProofs.
Import ListNotations.
Open Scope Z_scope.

Ltac Zify.zify_post_hook ::= Z.div_mod_to_equations.

(** ** Sums *)

Lemma zsum_0 f : zsum 0 f = 0.
Proof. reflexivity. Qed.
Lemma zsum_S n f : 0 <= n -> zsum (n + 1) f = zsum n f + f n.
Proof.
  intros Hn. unfold zsum. replace (Z.to_nat (n + 1)) with (S (Z.to_nat n)) by lia.
  cbn [sumn]. rewrite Z2Nat.id by lia. reflexivity.
Qed.
Lemma sumn_ext n f g : (forall k, 0 <= k < Z.of_nat n -> f k = g k) -> sumn n f = sumn n g.
Proof.
  induction n as [|n IH]; intros H; cbn [sumn]; auto. rewrite IH by (intros; apply H; lia).
  rewrite H by lia. reflexivity.
Qed.
Lemma zsum_ext n f g : (forall k, 0 <= k < n -> f k = g k) -> zsum n f = zsum n g.
Proof. intros H. apply sumn_ext. intros k Hk. apply H. lia. Qed.
Lemma sumn_bound n f a b : (forall k, 0 <= k < Z.of_nat n -> a <= f k <= b) ->
  Z.of_nat n * a <= sumn n f <= Z.of_nat n * b.
Proof.
  induction n as [|n IH]; intros H; cbn [sumn]; [lia|].
  specialize (IH ltac:(intros; apply H; lia)). pose proof (H (Z.of_nat n) ltac:(lia)). lia.
Qed.
Lemma zsum_bound n f a b : 0 <= n -> (forall k, 0 <= k < n -> a <= f k <= b) ->
  n * a <= zsum n f <= n * b.
Proof.
  intros Hn H. unfold zsum. pose proof (sumn_bound (Z.to_nat n) f a b) as B.
  rewrite Z2Nat.id in B by lia. apply B. intros. apply H. lia.
Qed.
Lemma sumn_add n f g : sumn n (fun k => f k + g k) = sumn n f + sumn n g.
Proof. induction n; cbn [sumn]; lia. Qed.
Lemma zsum_add n f g : zsum n (fun k => f k + g k) = zsum n f + zsum n g.
Proof. apply sumn_add. Qed.
Lemma zsum_const n c : 0 <= n -> zsum n (fun _ => c) = n * c.
Proof.
  intros Hn. pose proof (zsum_bound n (fun _ => c) c c Hn (fun _ _ => conj (Z.le_refl c) (Z.le_refl c))). lia.
Qed.
Lemma zsum_swap n k (f : Z -> Z -> Z) :
  zsum n (fun i => zsum k (f i)) = zsum k (fun j => zsum n (fun i => f i j)).
Proof.
  unfold zsum. induction (Z.to_nat n) as [|a IH]; cbn [sumn].
  - induction (Z.to_nat k); cbn [sumn]; lia.
  - rewrite IH, <- sumn_add. reflexivity.
Qed.

(** Partial sum of a [h] x [n] array in raster order: all rows before [j] and the first
    [i] entries of row [j]. *)
Definition psum (n : Z) (f : Z -> Z -> Z) (j i : Z) : Z :=
  zsum j (fun j' => zsum n (f j')) + zsum i (f j).

Lemma psum_0 n f : psum n f 0 0 = 0.
Proof. reflexivity. Qed.
Lemma psum_col n f j i : 0 <= i -> psum n f j (i + 1) = psum n f j i + f j i.
Proof. intros Hi. unfold psum. rewrite zsum_S by lia. lia. Qed.
Lemma psum_row n f j : 0 <= j -> psum n f (j + 1) 0 = psum n f j n.
Proof. intros Hj. unfold psum. rewrite zsum_S by lia. rewrite zsum_0. lia. Qed.
Lemma psum_end n f h : psum n f h 0 = zsum h (fun j => zsum n (f j)).
Proof. unfold psum. rewrite zsum_0. lia. Qed.
Lemma psum_bound n f j i a : 0 <= i <= n -> 0 <= j -> 0 <= a ->
  (forall j' i', 0 <= j' <= j -> 0 <= i' < n -> 0 <= f j' i' <= a) ->
  0 <= psum n f j i <= (j * n + i) * a.
Proof.
  intros Hi Hj Ha H. unfold psum.
  pose proof (zsum_bound j (fun j' => zsum n (f j')) 0 (n * a) Hj) as A.
  pose proof (zsum_bound i (f j) 0 a ltac:(lia)) as B.
  assert (C : forall k, 0 <= k < j -> 0 <= zsum n (f k) <= n * a).
  { intros k Hk. pose proof (zsum_bound n (f k) 0 a ltac:(lia)) as D.
    specialize (D ltac:(intros; apply H; lia)). lia. }
  specialize (A C). specialize (B ltac:(intros; apply H; lia)). nia.
Qed.

(** Hoare rule for two nested counted loops. *)
Lemma iterM2_inv {E T} (P : Z -> Z -> T -> Prop) (g : Z -> Z -> T -> res E T) h n t :
  0 <= h -> 0 <= n -> P 0 0 t ->
  (forall j i t, 0 <= j < h -> 0 <= i < n -> P j i t ->
     exists t', g j i t = Ok t' /\ P j (i + 1) t') ->
  (forall j t, 0 <= j < h -> P j n t -> P (j + 1) 0 t) ->
  exists t', iterM (Z.to_nat h) 0 (fun j => iterM (Z.to_nat n) 0 (fun i => g j i)) t = Ok t' /\ P h 0 t'.
Proof.
  intros Hh Hn H0 Hs Hr.
  destruct (@iterM_inv E T (fun j t => P j 0 t)
              (fun j => iterM (Z.to_nat n) 0 (fun i => g j i)) (Z.to_nat h) 0 t H0) as (t' & He & Hp).
  - intros j u Hj Hu.
    destruct (@iterM_inv E T (fun i t => P j i t) (fun i => g j i) (Z.to_nat n) 0 u Hu) as (u' & Hue & Hup).
    + intros i v Hi Hv. apply Hs; auto; lia.
    + exists u'. split; [exact Hue|]. apply Hr; [lia|].
      rewrite Z2Nat.id in Hup by lia. exact Hup.
  - exists t'. split; [exact He|]. rewrite Z2Nat.id in Hp by lia. exact Hp.
Qed.

(** ** Vectors *)

Lemma lset_length v : forall i x, length (lset v i x) = length v.
Proof. induction v; intros [|i] x; simpl; auto. Qed.
Lemma lset_nth v : forall i x k d, (i < length v)%nat ->
  nth k (lset v i x) d = if Nat.eqb k i then x else nth k v d.
Proof.
  induction v as [|a v IH]; intros [|i] x k d Hi; simpl in *; try lia.
  - destruct k; reflexivity.
  - destruct k as [|k]; simpl; auto. apply IH. lia.
Qed.

Definition zth (v : list Z) (i : Z) : Z := nth (Z.to_nat i) v 0.

Lemma vadd_ok {E} v i d : 0 <= i < Z.of_nat (length v) ->
  exists v', @vadd E v i d = Ok v' /\ length v' = length v /\
    forall k, 0 <= k -> zth v' k = if k =? i then u32 (zth v k + d) else zth v k.
Proof.
  intros Hi. unfold vadd, vnth, vset.
  destruct (Z.leb_spec 0 i); [|lia]. destruct (Z.ltb_spec i (Z.of_nat (length v))); [|lia].
  cbn [andb bind]. eexists. split; [reflexivity|]. split; [apply lset_length|].
  intros k Hk. unfold zth. rewrite lset_nth by lia.
  destruct (Nat.eqb_spec (Z.to_nat k) (Z.to_nat i)) as [E1|E1]; destruct (Z.eqb_spec k i); try lia; auto.
  rewrite E1. reflexivity.
Qed.

Lemma zth_repeat0 n k : zth (repeat 0 n) k = 0.
Proof.
  unfold zth. generalize (Z.to_nat k) as i. induction n as [|n IH]; intros [|i]; simpl; auto.
Qed.

(** ** Gray-scale regions *)

Definition roi_bytes (m : mem) (im : image) (x y w h : Z) : Prop :=
  forall i j c, inside w h (icc im) i j c -> 0 <= pixel m im (x + i) (y + j) c < 256.

Lemma bytes_roi m im x y w h : bytes m im -> roi_in im x y w h -> roi_bytes m im x y w h.
Proof. intros B [] i j c (Hi & Hj & Hc). apply B; lia. Qed.

Lemma gray_area m im x y w h : wf m im -> roi_in im x y w h -> w * icc im * h < W32.
Proof.
  intros Hw Hr. pose proof (wf_size _ _ Hw). pose proof (wf_rs _ _ Hw). pose proof (wf_cc_pos _ _ Hw).
  destruct Hr. assert (w * icc im <= irs im) by nia.
  assert (w * icc im * h <= irs im * h) by nia. assert (irs im * h <= ih im * irs im) by nia. lia.
Qed.

(** Reading loops over one image. *)
Lemma read1 {E T} m im x y w h w' h' (body : Z -> T -> res E T) t :
  wf m im -> roi_in im x y w h -> OptimiseRoi (w * icc im) h [im] = (w', h') ->
  walk h' [origin im x y (icc im)] [irs im] (padd (origin im x y (icc im)) (u32 (h' * irs im)))
    (fun cs t => walk w' cs [1] (padd (nth 0 cs nullp) w')
       (fun cs t => bind (load m (nth 0 cs nullp)) (fun a => body a t)) t) t
  = iterM (Z.to_nat h) 0 (fun j => iterM (Z.to_nat (w * icc im)) 0 (fun i =>
      body (get m (padd (origin im x y (icc im)) (j * irs im + i))))) t.
Proof.
  intros W R Ho. pose proof (wf_cc_pos _ _ W) as Hcc.
  assert (Hw0 : 0 < w) by apply R. assert (Hh0 : 0 < h) by apply R.
  pose proof (wf_rs_pos _ _ W). pose proof (roi_rows_small m im x y w h W R).
  rewrite <- (Z.mul_1_r (w * icc im)) in Ho.
  etransitivity; [apply (walk2_opt (w * icc im) 1 h [im] w' h' (origin im x y (icc im)) [] (irs im) []);
                  try reflexivity; try nia; auto|].
  - intros r [<-|[]]. exists im; simpl; auto.
  - apply iterM_ext. intros j s Hj. apply iterM_ext. intros i u Hi.
    unfold cells. cbn [length repeat zip3 map nth fst snd].
    rewrite load_ok; [rewrite Z.mul_1_r; reflexivity|].
    rewrite Z.mul_1_r. apply (cell_inb m im x y w h); auto; lia.
Qed.

Lemma Sum_value m im x y w h :
  wf m im -> icc im = 1 -> roi_in im x y w h ->
  Sum m im x y w h
  = Ok (u32 (zsum h (fun j => zsum w (fun i => pixel m im (x + i) (y + j) 0)))).
Proof.
  intros W C R. assert (Hw0 : 0 < w) by apply R. assert (Hh0 : 0 < h) by apply R.
  unfold Sum. rewrite (valid_roi_ok m) by assumption. rewrite gray_true by assumption.
  rewrite (row_ptr_origin m im x y w h) by (auto; lia).
  destruct (OptimiseRoi w h [im]) as [w' h'] eqn:Ho.
  rewrite <- (Z.mul_1_r w), <- C in Ho.
  replace (origin im x y 1) with (origin im x y (icc im)) by (rewrite C; reflexivity).
  unfold c0.
  rewrite (@read1 mem Z m im x y w h w' h' (fun a s => Ok (u32 (s + a))) 0 W R Ho).
  set (f := fun j i => pixel m im (x + i) (y + j) 0).
  destruct (@iterM2_inv mem Z (fun j i s => s = u32 (psum w f j i))
     (fun j i s => Ok (u32 (s + get m (padd (origin im x y (icc im)) (j * irs im + i))))) h w 0)
    as (s & He & Hs); try lia.
  - rewrite psum_0. reflexivity.
  - intros j i s Hj Hi ->. eexists. split; [reflexivity|]. rewrite psum_col by lia.
    unfold f, pixel. rewrite px_origin, C, Z.mul_1_r, Z.add_0_r.
    unfold u32. rewrite Zplus_mod_idemp_l. reflexivity.
  - intros j s Hj ->. rewrite psum_row by lia. reflexivity.
  - replace (w * icc im) with w by (rewrite C; lia). rewrite He, Hs. rewrite psum_end. reflexivity.
Qed.

(** ** Histogram *)

Lemma Histogram_value m im x y w h :
  wf m im -> icc im = 1 -> roi_in im x y w h -> roi_bytes m im x y w h ->
  exists hist, Histogram m im x y w h = Ok hist /\ length hist = 256%nat /\
    forall v, 0 <= v < 256 ->
      zth hist v = zsum h (fun j => zcount w (fun i => pixel m im (x + i) (y + j) 0 =? v)).
Proof.
  intros W C R B. assert (Hw0 : 0 < w) by apply R. assert (Hh0 : 0 < h) by apply R.
  pose proof (gray_area m im x y w h W R) as Har. rewrite C, Z.mul_1_r in Har.
  unfold Histogram. rewrite (valid_roi_ok m) by assumption.
  destruct (OptimiseRoi w h [im]) as [w' h'] eqn:Ho.
  rewrite <- (Z.mul_1_r w), <- C in Ho.
  assert (E1 : (icc im =? 1) = true) by (rewrite C; reflexivity). rewrite E1.
  rewrite (row_ptr_origin m im x y w h) by (auto; lia).
  unfold c0.
  rewrite (@read1 mem (list Z) m im x y w h w' h' (fun a s => vadd s a 1) _ W R Ho).
  set (f := fun v j i => if pixel m im (x + i) (y + j) 0 =? v then 1 else 0).
  destruct (@iterM2_inv mem (list Z)
     (fun j i s => length s = 256%nat /\ forall v, 0 <= v < 256 -> zth s v = psum w (f v) j i)
     (fun j i s => vadd s (get m (padd (origin im x y (icc im)) (j * irs im + i))) 1) h w
     (repeat 0 (Z.to_nat (256 * icc im))))
    as (s & He & Hl & Hs); try lia.
  - rewrite C. split; [reflexivity|]. intros v Hv. rewrite psum_0. apply zth_repeat0.
  - intros j i s Hj Hi (Hl & Hs).
    assert (Hp : get m (padd (origin im x y (icc im)) (j * irs im + i)) = pixel m im (x + i) (y + j) 0).
    { unfold pixel. rewrite px_origin, C, Z.mul_1_r, Z.add_0_r. reflexivity. }
    rewrite Hp. assert (Hb : 0 <= pixel m im (x + i) (y + j) 0 < 256) by (apply B; unfold inside; lia).
    destruct (@vadd_ok mem s (pixel m im (x + i) (y + j) 0) 1) as (s' & He & Hl' & Hv'); [lia|].
    exists s'. split; [exact He|]. split; [lia|].
    intros v Hv. rewrite Hv' by lia. rewrite (Hs v Hv). rewrite psum_col by lia.
    change (f v j i) with (if pixel m im (x + i) (y + j) 0 =? v then 1 else 0). rewrite (Z.eqb_sym v).
    destruct (pixel m im (x + i) (y + j) 0 =? v); [|lia].
    apply u32_small.
    pose proof (psum_bound w (f v) j i 1) as Hb1.
    assert (A : forall j' i', 0 <= j' <= j -> 0 <= i' < w -> 0 <= f v j' i' <= 1)
      by (intros j' i' _ _; unfold f; destruct (pixel m im (x + i') (y + j') 0 =? v); lia).
    specialize (Hb1 ltac:(lia) ltac:(lia) ltac:(lia) A). nia.
  - intros j s Hj (Hl & Hs). split; [assumption|]. intros v Hv. rewrite psum_row by lia. auto.
  - replace (w * icc im) with w by (rewrite C; lia). rewrite He. exists s. split; [reflexivity|]. split; [assumption|].
    intros v Hv. rewrite Hs by assumption. apply psum_end.
Qed.

Lemma HistogramMask_value m im x y mask mx my w h :
  wf m im -> wf m mask -> icc im = 1 -> icc mask = 1 ->
  roi_in im x y w h -> roi_in mask mx my w h -> roi_bytes m im x y w h -> roi_bytes m mask mx my w h ->
  exists hist, HistogramMask m im x y mask mx my w h = Ok hist /\ length hist = 256%nat /\
    forall v, 0 <= v < 256 ->
      zth hist v = zsum h (fun j => zcount w (fun i =>
        (pixel m im (x + i) (y + j) 0 =? v) && negb (pixel m mask (mx + i) (my + j) 0 =? 0))).
Proof.
  intros W Wm C Cm R Rm B Bm. assert (Hw0 : 0 < w) by apply R. assert (Hh0 : 0 < h) by apply R.
  pose proof (gray_area m im x y w h W R) as Har. rewrite C, Z.mul_1_r in Har.
  unfold HistogramMask, valid_roi2. rewrite !(valid_roi_ok m) by assumption. cbn [andb].
  destruct (OptimiseRoi w h [im; mask]) as [w' h'] eqn:Ho.
  rewrite <- (Z.mul_1_r w) in Ho.
  assert (E1 : (icc im =? 1) = true) by (rewrite C; reflexivity). rewrite E1.
  rewrite (row_ptr_origin m im x y w h) by (auto; lia).
  rewrite (row_ptr_origin m mask mx my w h) by (auto; lia).
  pose proof (wf_rs_pos _ _ W). pose proof (roi_rows_small m im x y w h W R).
  set (step := fun j i (hist : list Z) =>
        bind (load m (padd (origin mask mx my 1) (j * irs mask + i))) (fun k =>
          if 0 <? k then bind (load m (padd (origin im x y (icc im)) (j * irs im + i))) (fun a => vadd hist a 1)
          else Ok hist) : res mem (list Z)).
  match goal with |- exists hist, ?r = Ok hist /\ _ =>
    assert (Er : r = iterM (Z.to_nat h) 0 (fun j => iterM (Z.to_nat w) 0 (fun i => step j i))
                     (repeat 0 (Z.to_nat (256 * icc im)))) end.
  { etransitivity; [apply (walk2_opt w 1 h [im; mask] w' h' (origin im x y (icc im)) [origin mask mx my 1]
                     (irs im) [irs mask]); try reflexivity; try lia; auto|].
    - intros r [<-|[<-|[]]]; [exists im|exists mask]; simpl; auto.
    - apply iterM_ext. intros j s Hj. apply iterM_ext. intros i u Hi.
      unfold step, c0, c1, cells. cbn [length repeat zip3 map nth fst snd]. rewrite !Z.mul_1_r. reflexivity. }
  rewrite Er.
  set (f := fun v j i => if (pixel m im (x + i) (y + j) 0 =? v)
                            && negb (pixel m mask (mx + i) (my + j) 0 =? 0) then 1 else 0).
  destruct (@iterM2_inv mem (list Z)
     (fun j i s => length s = 256%nat /\ forall v, 0 <= v < 256 -> zth s v = psum w (f v) j i)
     step h w (repeat 0 (Z.to_nat (256 * icc im))))
    as (s & He & Hl & Hs); try lia.
  - rewrite C. split; [reflexivity|]. intros v Hv. rewrite psum_0. apply zth_repeat0.
  - intros j i s Hj Hi (Hl & Hs).
    assert (Hp : padd (origin im x y (icc im)) (j * irs im + i) = px im (x + i) (y + j) 0)
      by (rewrite px_origin, C, Z.mul_1_r, Z.add_0_r; reflexivity).
    assert (Hpm : padd (origin mask mx my 1) (j * irs mask + i) = px mask (mx + i) (my + j) 0)
      by (rewrite px_origin, Cm, Z.mul_1_r, Z.add_0_r; reflexivity).
    unfold step. rewrite Hp, Hpm.
    rewrite load_ok by (apply (px_inb m mask mx my w h); auto; unfold inside; lia).
    rewrite load_ok by (apply (px_inb m im x y w h); auto; unfold inside; lia).
    cbn [bind]. fold (pixel m mask (mx + i) (my + j) 0). fold (pixel m im (x + i) (y + j) 0).
    assert (Hb : 0 <= pixel m im (x + i) (y + j) 0 < 256) by (apply B; unfold inside; lia).
    assert (Hbm : 0 <= pixel m mask (mx + i) (my + j) 0 < 256) by (apply Bm; unfold inside; lia).
    destruct (Z.ltb_spec 0 (pixel m mask (mx + i) (my + j) 0)) as [Hk|Hk].
    + destruct (@vadd_ok mem s (pixel m im (x + i) (y + j) 0) 1) as (s' & He & Hl' & Hv'); [lia|].
      exists s'. split; [exact He|]. split; [lia|].
      intros v Hv. rewrite Hv' by lia. rewrite (Hs v Hv). rewrite psum_col by lia.
      change (f v j i) with (if (pixel m im (x + i) (y + j) 0 =? v)
                            && negb (pixel m mask (mx + i) (my + j) 0 =? 0) then 1 else 0).
      rewrite (Z.eqb_sym v).
      destruct (Z.eqb_spec (pixel m mask (mx + i) (my + j) 0) 0); [lia|]. rewrite andb_true_r.
      destruct (pixel m im (x + i) (y + j) 0 =? v); [|lia].
      apply u32_small.
      pose proof (psum_bound w (f v) j i 1) as Hb1.
      assert (A : forall j' i', 0 <= j' <= j -> 0 <= i' < w -> 0 <= f v j' i' <= 1)
        by (intros j' i' _ _; unfold f; match goal with |- context [if ?b then _ else _] => destruct b end; lia).
      specialize (Hb1 ltac:(lia) ltac:(lia) ltac:(lia) A). nia.
    + exists s. split; [reflexivity|]. split; [assumption|].
      intros v Hv. rewrite psum_col by lia. 
      change (f v j i) with (if (pixel m im (x + i) (y + j) 0 =? v)
                            && negb (pixel m mask (mx + i) (my + j) 0 =? 0) then 1 else 0).
      destruct (Z.eqb_spec (pixel m mask (mx + i) (my + j) 0) 0); [|lia].
      rewrite andb_false_r, Z.add_0_r. auto.
  - intros j s Hj (Hl & Hs). split; [assumption|]. intros v Hv. rewrite psum_row by lia. auto.
  - rewrite He. exists s. split; [reflexivity|]. split; [assumption|].
    intros v Hv. rewrite Hs by assumption. apply psum_end.
Qed.

(** ** ProjectionProfile *)

Lemma Projection_vertical m im x y w h :
  wf m im -> roi_in im x y w h ->
  exists p, ProjectionProfile m im x y w h false = Ok p /\ length p = Z.to_nat h /\
    forall j, 0 <= j < h ->
      zth p j = u32 (zsum w (fun i => zsum (icc im) (fun c => pixel m im (x + i) (y + j) c))).
Proof.
  intros W R. assert (Hw0 : 0 < w) by apply R. assert (Hh0 : 0 < h) by apply R.
  pose proof (wf_cc_pos _ _ W) as Hcc.
  unfold ProjectionProfile. rewrite (valid_roi_ok m) by assumption.
  rewrite (row_ptr_origin m im x y w h) by (auto; lia).
  rewrite (u32_width m im x w) by (auto; first [apply R|lia]).
  pose proof (wf_rs_pos _ _ W). pose proof (roi_rows_small m im x y w h W R).
  rewrite walk_rows by (auto; lia).
  set (g := fun j i => get m (padd (origin im x y (icc im)) (j * irs im + i))).
  match goal with |- exists p, ?r = Ok p /\ _ =>
    assert (Er : r = iterM (Z.to_nat h) 0 (fun j => iterM (Z.to_nat (w * icc im)) 0 (fun i s =>
                   vadd s j (g j i))) (repeat 0 (Z.to_nat h))) end.
  { apply iterM_ext. intros j s Hj. unfold at_, c0, c1. cbn [combine map nth fst snd padd].
    rewrite Z.mul_1_r, Z.add_0_l.
    erewrite (walk_iterM (w * icc im)) by (try reflexivity; try nia; f_equal; lia).
    apply iterM_ext. intros i u Hi. unfold at_. cbn [combine map nth fst snd].
    rewrite Z.mul_1_r.
    replace (padd (padd (origin im x y (icc im)) (j * irs im)) i)
      with (padd (origin im x y (icc im)) (j * irs im + i)) by (unfold padd; cbn [fst snd]; f_equal; lia).
    rewrite load_ok by (apply (cell_inb m im x y w h); auto; lia). reflexivity. }
  rewrite Er.
  destruct (@iterM2_inv mem (list Z)
     (fun j i s => length s = Z.to_nat h /\
        forall k, 0 <= k < h -> zth s k = u32 (if k <? j then zsum (w * icc im) (g k)
                                               else if k =? j then zsum i (g j) else 0))
     (fun j i s => vadd s j (g j i)) h (w * icc im) (repeat 0 (Z.to_nat h)))
    as (s & He & Hl & Hs); try nia.
  - split; [apply repeat_length|]. intros k Hk. rewrite zth_repeat0.
    destruct (Z.ltb_spec k 0); [lia|]. destruct (k =? 0); rewrite ?zsum_0; reflexivity.
  - intros j i s Hj Hi (Hl & Hs).
    destruct (@vadd_ok mem s j (g j i)) as (s' & He & Hl' & Hv'); [lia|].
    exists s'. split; [exact He|]. split; [lia|].
    intros k Hk. rewrite Hv' by lia. rewrite (Hs k Hk).
    destruct (Z.eqb_spec k j) as [->|Hne]; auto.
    destruct (Z.ltb_spec j j); [lia|]. rewrite zsum_S by lia.
    unfold u32. rewrite Zplus_mod_idemp_l. reflexivity.
  - intros j s Hj (Hl & Hs). split; [assumption|]. intros k Hk. rewrite Hs by assumption.
    destruct (Z.ltb_spec k j), (Z.ltb_spec k (j + 1)), (Z.eqb_spec k j), (Z.eqb_spec k (j + 1));
      try lia; subst; auto.
  - rewrite He. exists s. split; [reflexivity|]. split; [assumption|].
    intros j Hj. rewrite Hs by assumption. destruct (Z.ltb_spec j h); [|lia].
    f_equal. clear - Hcc Hw0.
    assert (G : forall n, 0 <= n -> zsum (n * icc im) (g j)
                = zsum n (fun i => zsum (icc im) (fun c => pixel m im (x + i) (y + j) c))).
    { intros n Hn. pattern n. apply natlike_ind; [reflexivity| |assumption].
      intros k Hk IH. unfold Z.succ. rewrite zsum_S by assumption. rewrite <- IH.
      assert (G2 : forall c, 0 <= c -> zsum (k * icc im + c) (g j)
                = zsum (k * icc im) (g j) + zsum c (fun c => pixel m im (x + k) (y + j) c)).
      { intros c Hc. pattern c. apply natlike_ind; [rewrite Z.add_0_r, zsum_0; lia| |assumption].
        intros c' Hc' IHc. unfold Z.succ. rewrite Z.add_assoc, !zsum_S by nia.
        rewrite IHc.
        assert (Hgp : g j (k * icc im + c') = pixel m im (x + k) (y + j) c')
          by (unfold g, pixel; rewrite px_origin; reflexivity).
        lia. }
      rewrite <- G2 by lia. f_equal. lia. }
    apply G. lia.
Qed.

Lemma Projection_horizontal m im x y w h :
  wf m im -> roi_in im x y w h ->
  exists p, ProjectionProfile m im x y w h true = Ok p /\ length p = Z.to_nat (w * icc im) /\
    forall i c, 0 <= i < w -> 0 <= c < icc im ->
      zth p (i * icc im + c) = u32 (zsum h (fun j => pixel m im (x + i) (y + j) c)).
Proof.
  intros W R. assert (Hw0 : 0 < w) by apply R. assert (Hh0 : 0 < h) by apply R.
  pose proof (wf_cc_pos _ _ W) as Hcc.
  unfold ProjectionProfile. rewrite (valid_roi_ok m) by assumption.
  rewrite (row_ptr_origin m im x y w h) by (auto; lia).
  rewrite (u32_width m im x w) by (auto; first [apply R|lia]).
  pose proof (wf_rs_pos _ _ W). pose proof (roi_rows_small m im x y w h W R).
  set (g := fun i j => get m (padd (origin im x y (icc im)) (j * irs im + i))).
  match goal with |- exists p, ?r = Ok p /\ _ =>
    assert (Er : r = iterM (Z.to_nat (w * icc im)) 0 (fun i => iterM (Z.to_nat h) 0 (fun j s =>
                   vadd s i (g i j))) (repeat 0 (Z.to_nat (w * icc im)))) end.
  { erewrite (walk_iterM (w * icc im)) by (try reflexivity; try nia; f_equal; lia).
    apply iterM_ext. intros i s Hi. unfold at_, c0, c1. cbn [combine map nth fst snd padd].
    rewrite Z.mul_1_r, Z.add_0_l.
    rewrite walk_rows by (auto; lia).
    apply iterM_ext. intros j u Hj. unfold at_. cbn [combine map nth fst snd].
    replace (padd (padd (origin im x y (icc im)) i) (j * irs im))
      with (padd (origin im x y (icc im)) (j * irs im + i)) by (unfold padd; cbn [fst snd]; f_equal; lia).
    rewrite load_ok by (apply (cell_inb m im x y w h); auto; lia). reflexivity. }
  rewrite Er.
  destruct (@iterM2_inv mem (list Z)
     (fun i j s => length s = Z.to_nat (w * icc im) /\
        forall k, 0 <= k < w * icc im -> zth s k = u32 (if k <? i then zsum h (g k)
                                               else if k =? i then zsum j (g i) else 0))
     (fun i j s => vadd s i (g i j)) (w * icc im) h (repeat 0 (Z.to_nat (w * icc im))))
    as (s & He & Hl & Hs); try nia.
  - split; [apply repeat_length|]. intros k Hk. rewrite zth_repeat0.
    destruct (Z.ltb_spec k 0); [lia|]. destruct (k =? 0); rewrite ?zsum_0; reflexivity.
  - intros j i s Hj Hi (Hl & Hs).
    destruct (@vadd_ok mem s j (g j i)) as (s' & He & Hl' & Hv'); [lia|].
    exists s'. split; [exact He|]. split; [lia|].
    intros k Hk. rewrite Hv' by lia. rewrite (Hs k Hk).
    destruct (Z.eqb_spec k j) as [->|Hne]; auto.
    destruct (Z.ltb_spec j j); [lia|]. rewrite zsum_S by lia.
    unfold u32. rewrite Zplus_mod_idemp_l. reflexivity.
  - intros j s Hj (Hl & Hs). split; [assumption|]. intros k Hk. rewrite Hs by assumption.
    destruct (Z.ltb_spec k j), (Z.ltb_spec k (j + 1)), (Z.eqb_spec k j), (Z.eqb_spec k (j + 1));
      try lia; subst; auto.
  - rewrite He. exists s. split; [reflexivity|]. split; [assumption|].
    intros i c Hi Hc. pose proof (join_index (icc im) i c w Hi Hc).
    rewrite Hs by lia. destruct (Z.ltb_spec (i * icc im + c) (w * icc im)); [|lia].
    f_equal. apply zsum_ext. intros j Hj. unfold g, pixel. rewrite px_origin. reflexivity.
Qed.

(** ** Accumulate *)

Lemma Accumulate_value m im x y w h r :
  wf m im -> roi_in im x y w h -> Z.of_nat (length r) = w * icc im * h ->
  exists r', Accumulate m im x y w h r = Ok r' /\ length r' = length r /\
    forall i j c, inside w h (icc im) i j c ->
      zth r' (j * (w * icc im) + i * icc im + c)
      = u32 (zth r (j * (w * icc im) + i * icc im + c) + pixel m im (x + i) (y + j) c).
Proof.
  intros W R Hlen. assert (Hw0 : 0 < w) by apply R. assert (Hh0 : 0 < h) by apply R.
  pose proof (wf_cc_pos _ _ W) as Hcc.
  pose proof (gray_area m im x y w h W R) as Har.
  unfold Accumulate. rewrite (valid_roi_ok m) by assumption.
  rewrite (row_ptr_origin m im x y w h) by (auto; lia).
  rewrite (u32_width m im x w) by (auto; first [apply R|lia]).
  destruct (OptimiseRoi (w * icc im) h [im]) as [w' h'] eqn:Ho.
  set (n := w * icc im) in *.
  assert (Hn : 0 < n) by (unfold n; nia).
  assert (Hwh : w' * h' = n * h).
  { destruct (OptimiseRoi_cases n h [im]) as [E1|(E1 & _)]; try nia; rewrite E1 in Ho;
      injection Ho as <- <-; nia. }
  rewrite Hwh, (u32_small (n * h)) by nia. rewrite Hlen, Z.eqb_refl.
  set (g := fun j i => get m (padd (origin im x y (icc im)) (j * irs im + i))).
  set (body := fun a (s : list Z * Z) => let '(r, k) := s in
                 bind (vadd r k a) (fun r' => Ok (r', k + 1)) : res (list Z) (list Z * Z)).
  match goal with |- exists r', bind ?l _ = _ /\ _ =>
    assert (Er : l = iterM (Z.to_nat h) 0 (fun j => iterM (Z.to_nat n) 0 (fun i => body (g j i))) (r, 0)) end.
  { unfold n, g. rewrite <- (@read1 (list Z) _ m im x y w h w' h' body (r, 0) W R Ho).
    assert (Hsh : forall N cs ss pe (b1 b2 : list ptr -> list Z * Z -> res (list Z) (list Z * Z)) s,
              (forall cs s, b1 cs s = b2 cs s) -> walk N cs ss pe b1 s = walk N cs ss pe b2 s).
    { intros N cs ss pe b1 b2 s Hb. unfold walk. f_equal.
      generalize (cs, s). induction (fuel_of N) as [|f IH]; intros t; cbn [loop]; auto.
      destruct (negb _); auto. rewrite Hb. apply bind_ext. intros t' _. apply IH. }
    apply Hsh. intros cs [r1 k1]. apply Hsh. intros cs2 [r2 k2]. reflexivity. }
  rewrite Er.
  destruct (@iterM2_inv (list Z) (list Z * Z)
     (fun j i s => snd s = j * n + i /\ length (fst s) = length r /\
        forall k, 0 <= k < n * h ->
          zth (fst s) k = if k <? j * n + i then u32 (zth r k + g (k / n) (k mod n)) else zth r k)
     (fun j i => body (g j i)) h n (r, 0))
    as (s & He & Hk & Hl & Hs); try lia.
  - split; [reflexivity|]. split; [reflexivity|]. intros k Hk.
    destruct (Z.ltb_spec k (0 * n + 0)); [lia|reflexivity].
  - intros j i [r1 k1] Hj Hi (Ek & Hl & Hs). cbn [fst snd] in *. subst k1.
    destruct (@vadd_ok (list Z) r1 (j * n + i) (g j i)) as (s' & He & Hl' & Hv'); [nia|].
    exists (s', j * n + i + 1). unfold body. rewrite He. cbn [bind fst snd].
    split; [reflexivity|]. split; [lia|]. split; [lia|].
    intros k Hk. rewrite Hv' by lia. rewrite (Hs k Hk).
    destruct (Z.eqb_spec k (j * n + i)) as [->|Hne].
    + destruct (Z.ltb_spec (j * n + i) (j * n + i)); [lia|].
      destruct (Z.ltb_spec (j * n + i) (j * n + (i + 1))); [|lia].
      destruct (divmod_flat n j i) as [D1 D2]; [lia|]. rewrite D1, D2. reflexivity.
    + destruct (Z.ltb_spec k (j * n + i)), (Z.ltb_spec k (j * n + (i + 1))); try lia; reflexivity.
  - intros j s Hj (Ek & Hl & Hs). split; [lia|]. split; [assumption|].
    intros k Hk. rewrite Hs by assumption. replace ((j + 1) * n + 0) with (j * n + n) by lia. reflexivity.
  - rewrite He. cbn [bind]. destruct s as [s1 s2]. cbn [fst snd] in *.
    exists s1. split; [reflexivity|]. split; [assumption|].
    intros i j c (Hi & Hj & Hc). pose proof (join_index (icc im) i c w Hi Hc).
    fold n in H. rewrite <- Z.add_assoc.
    rewrite Hs by nia. destruct (Z.ltb_spec (j * n + (i * icc im + c)) (h * n + 0)); [|nia].
    destruct (divmod_flat n j (i * icc im + c)) as [D1 D2]; [lia|]. rewrite D1, D2.
    unfold g, pixel. rewrite px_origin. reflexivity.
Qed.

(** ** IsEqual, IsBinary *)

Lemma IsEqual_value m in1 x1 y1 in2 x2 y2 w h :
  wf m in1 -> wf m in2 -> icc in1 = icc in2 -> roi_in in1 x1 y1 w h -> roi_in in2 x2 y2 w h ->
  exists b, IsEqual m in1 x1 y1 in2 x2 y2 w h = Ok b /\
    (b = true <-> forall i j c, inside w h (icc in1) i j c ->
       pixel m in1 (x1 + i) (y1 + j) c = pixel m in2 (x2 + i) (y2 + j) c).
Proof.
  intros W1 W2 C R1 R2. assert (Hw0 : 0 < w) by apply R1. assert (Hh0 : 0 < h) by apply R1.
  pose proof (wf_cc_pos _ _ W1) as Hcc.
  unfold IsEqual, valid_roi2, common_cc2. rewrite !(valid_roi_ok m) by assumption.
  rewrite <- C, Z.eqb_refl. cbn [andb].
  rewrite (row_ptr_origin m in1 x1 y1 w h) by (auto; lia).
  rewrite (row_ptr_origin m in2 x2 y2 w h) by (auto; lia).
  rewrite (u32_width m in1 x1 w) by (auto; first [apply R1|lia]).
  destruct (OptimiseRoi (w * icc in1) h [in1; in2]) as [w' h'] eqn:Ho.
  pose proof (wf_rs_pos _ _ W1). pose proof (roi_rows_small m in1 x1 y1 w h W1 R1).
  set (g1 := fun j i => get m (padd (origin in1 x1 y1 (icc in1)) (j * irs in1 + i))).
  set (g2 := fun j i => get m (padd (origin in2 x2 y2 (icc in1)) (j * irs in2 + i))).
  set (step := fun j i (t : bool) => if g1 j i =? g2 j i then Ok t else Throw false : res bool bool).
  rewrite <- (Z.mul_1_r (w * icc in1)) in Ho.
  match goal with |- exists b, match ?r with _ => _ end = _ /\ _ =>
    assert (Er : r = iterM (Z.to_nat h) 0 (fun j => iterM (Z.to_nat (w * icc in1)) 0 (fun i => step j i)) true) end.
  { etransitivity; [apply (walk2_opt (w * icc in1) 1 h [in1; in2] w' h' (origin in1 x1 y1 (icc in1))
                     [origin in2 x2 y2 (icc in1)] (irs in1) [irs in2]); try reflexivity; try nia; auto|].
    - intros r [<-|[<-|[]]]; [exists in1|exists in2]; simpl; auto.
    - apply iterM_ext. intros j s Hj. apply iterM_ext. intros i u Hi.
      unfold step, c0, c1, cells. cbn [length repeat zip3 map nth fst snd]. rewrite !Z.mul_1_r.
      rewrite load_ok by (apply (cell_inb m in1 x1 y1 w h); auto; lia).
      rewrite load_ok by (rewrite C; apply (cell_inb m in2 x2 y2 w h); auto; try lia).
      reflexivity. }
  rewrite Er. clear Er.
  (* a run of such steps: Ok true if all agree, otherwise Throw false *)
  assert (Hrow : forall n j k, iterM n k (fun i => step j i) true = Ok true /\
                   (forall i, k <= i < k + Z.of_nat n -> g1 j i = g2 j i)
                 \/ iterM n k (fun i => step j i) true = Throw false /\
                   exists i, k <= i < k + Z.of_nat n /\ g1 j i <> g2 j i).
  { induction n as [|n IH]; intros j k; cbn [iterM].
    - left. split; [reflexivity|]. intros; lia.
    - unfold step at 1 3. destruct (Z.eqb_spec (g1 j k) (g2 j k)) as [Heq|Hne]; cbn [bind].
      + destruct (IH j (k + 1)) as [(He & Ha)|(He & i & Hi & Hx)].
        * left. split; [exact He|]. intros i Hi. destruct (Z.eq_dec i k) as [->|]; [assumption|apply Ha; lia].
        * right. split; [exact He|]. exists i. split; [lia|assumption].
      + right. split; [reflexivity|]. exists k. split; [lia|assumption]. }
  assert (Hall : forall n k, iterM n k (fun j => iterM (Z.to_nat (w * icc in1)) 0 (fun i => step j i)) true = Ok true /\
                   (forall j i, k <= j < k + Z.of_nat n -> 0 <= i < w * icc in1 -> g1 j i = g2 j i)
                 \/ iterM n k (fun j => iterM (Z.to_nat (w * icc in1)) 0 (fun i => step j i)) true = Throw false /\
                   exists j i, k <= j < k + Z.of_nat n /\ 0 <= i < w * icc in1 /\ g1 j i <> g2 j i).
  { induction n as [|n IH]; intros k; cbn [iterM].
    - left. split; [reflexivity|]. intros; lia.
    - destruct (Hrow (Z.to_nat (w * icc in1)) k 0) as [(He & Ha)|(He & i & Hi & Hx)]; rewrite He; cbn [bind].
      + destruct (IH (k + 1)) as [(He2 & Ha2)|(He2 & j & i & Hj & Hi & Hx)].
        * left. split; [exact He2|]. intros j i Hj Hi.
          destruct (Z.eq_dec j k) as [->|]; [apply Ha; lia|apply Ha2; lia].
        * right. split; [exact He2|]. exists j, i. repeat split; auto; lia.
      + right. split; [reflexivity|]. exists k, i. repeat split; auto; lia. }
  destruct (Hall (Z.to_nat h) 0) as [(He & Ha)|(He & j & i & Hj & Hi & Hx)]; rewrite He.
  - exists true. split; [reflexivity|]. split; [|reflexivity]. intros _ i j c (Hi & Hj & Hc).
    pose proof (join_index (icc in1) i c w Hi Hc). unfold pixel. rewrite !px_origin, <- C.
    apply Ha; lia.
  - exists false. split; [reflexivity|]. split; [discriminate|]. intros Hp. exfalso. apply Hx.
    destruct (split_index (icc in1) i w) as (A & B & D); try lia.
    unfold g1, g2. rewrite D.
    specialize (Hp (i / icc in1) j (i mod icc in1)). unfold pixel in Hp. rewrite !px_origin in Hp.
    rewrite <- C in Hp. apply Hp. unfold inside; lia.
Qed.

(** Number of distinct values of the region, by counting the values that occur. *)
Lemma zcount_filter (P : Z -> bool) : forall n (l : list Z), length l = n ->
  Z.of_nat (length (filter P l)) = zcount (Z.of_nat n) (fun k => P (zth l k)).
Proof.
  unfold zcount, zsum, zth. intros n l Hl. rewrite Nat2Z.id.
  revert l Hl. induction n as [|n IH]; intros l Hl.
  - destruct l; [reflexivity|discriminate].
  - destruct (@exists_last _ l) as (l' & a & ->); [destruct l; [discriminate|congruence]|].
    rewrite app_length in Hl. simpl in Hl. rewrite filter_app, app_length, Nat2Z.inj_add.
    assert (Hl' : length l' = n) by lia.
    rewrite (IH l' Hl'). cbn [sumn]. f_equal.
    + apply sumn_ext. intros k Hk. rewrite app_nth1 by lia. reflexivity.
    + rewrite app_nth2 by lia. replace (Z.to_nat (Z.of_nat n) - length l')%nat with 0%nat by lia.
      simpl. destruct (P a); reflexivity.
Qed.

Lemma IsBinary_value m im x y w h :
  wf m im -> icc im = 1 -> roi_in im x y w h -> roi_bytes m im x y w h ->
  exists b, IsBinary m im x y w h = Ok b /\
    (b = true <-> zcount 256 (fun v => 0 <? zsum h (fun j => zcount w (fun i =>
                     pixel m im (x + i) (y + j) 0 =? v))) < 3).
Proof.
  intros W C R B. unfold IsBinary. rewrite (valid_roi_ok m) by assumption.
  rewrite gray_true by assumption.
  destruct (Histogram_value m im x y w h W C R B) as (hist & He & Hl & Hv). rewrite He. cbn [bind].
  eexists. split; [reflexivity|]. rewrite Z.ltb_lt.
  rewrite (zcount_filter _ 256 hist Hl). change (Z.of_nat 256) with 256.
  unfold zcount at 1 2.
  rewrite (zsum_ext 256 _ (fun v => if 0 <? zsum h (fun j => zcount w (fun i =>
                     pixel m im (x + i) (y + j) 0 =? v)) then 1 else 0)); [reflexivity|].
  intros k Hk. rewrite Hv by assumption. reflexivity.
Qed.

(** ** Pixel access *)

Lemma access_ptr m im x y : wf m im -> icc im = 1 -> 0 <= x < iw im -> 0 <= y < ih im ->
  padd (padd (dataptr im) (u32 (y * irs im))) x = px im x y 0.
Proof.
  intros W C Hx Hy. pose proof (wf_size _ _ W). pose proof (wf_rs_pos _ _ W).
  replace (dataptr im) with (ibase im).
  2:{ unfold dataptr, ibase. destruct (idata im) eqn:E; auto. destruct (wf_data _ _ W E). }
  rewrite u32_small by nia. unfold px, padd. cbn [fst snd]. f_equal. rewrite C. lia.
Qed.

Lemma access_guard m im x y : wf m im -> icc im = 1 -> 0 <= x -> 0 <= y ->
  negb (iempty im || (iw im <=? x) || (ih im <=? y) || negb (is_gray im))
  = (x <? iw im) && (y <? ih im).
Proof.
  intros W C Hx Hy. rewrite (wf_not_empty m) by assumption. rewrite gray_true by assumption.
  cbn [orb negb]. rewrite orb_false_r, negb_orb.
  rewrite !Z.ltb_antisym. reflexivity.
Qed.

Lemma px_inb1 m im x y : wf m im -> icc im = 1 -> 0 <= x < iw im -> 0 <= y < ih im ->
  inb m (px im x y 0) = true.
Proof.
  intros W C Hx Hy. pose proof (px_inb m im 0 0 (iw im) (ih im) x y 0) as H.
  rewrite !Z.add_0_l in H. apply H; auto; [constructor; lia|unfold inside; lia].
Qed.

Lemma GetPixel_value m im x y : wf m im -> icc im = 1 -> 0 <= x -> 0 <= y ->
  GetPixel m im x y = if (x <? iw im) && (y <? ih im) then Ok (pixel m im x y 0) else Throw m.
Proof.
  intros W C Hx Hy. unfold GetPixel. rewrite (access_guard m) by assumption.
  destruct (Z.ltb_spec x (iw im)), (Z.ltb_spec y (ih im)); cbn [andb]; auto.
  rewrite (access_ptr m) by (auto; lia). rewrite load_ok by (apply px_inb1; auto; lia). reflexivity.
Qed.

Lemma SetPixel_value m im x y v : wf m im -> icc im = 1 -> 0 <= x -> 0 <= y ->
  SetPixel m im x y v = if (x <? iw im) && (y <? ih im) then Ok (upd m (px im x y 0) v) else Throw m.
Proof.
  intros W C Hx Hy. unfold SetPixel. rewrite (access_guard m) by assumption.
  destruct (Z.ltb_spec x (iw im)), (Z.ltb_spec y (ih im)); cbn [andb]; auto.
  rewrite (access_ptr m) by (auto; lia). rewrite store_ok by (apply px_inb1; auto; lia). reflexivity.
Qed.

Lemma wf_same_len m m' im : same_len m m' -> wf m im -> wf m' im.
Proof.
  intros H W. destruct W. constructor; auto. rewrite H. assumption.
Qed.

Lemma setpixel_loop_ok im v : icc im = 1 -> forall pts m, wf m im ->
  (forall x y, In (x, y) pts -> 0 <= x < iw im /\ 0 <= y < ih im) ->
  exists m', setpixel_loop m im pts v = Ok m' /\ same_len m m' /\
    (forall x y, In (x, y) pts -> pixel m' im x y 0 = v) /\
    (forall p, (forall x y, In (x, y) pts -> p <> px im x y 0) -> get m' p = get m p).
Proof.
  intros C. induction pts as [|[x y] pts IH]; intros m W Hin.
  - exists m. repeat split; auto using same_len_refl. intros x y [].
  - destruct (Hin x y) as [Hx Hy]; [simpl; auto|].
    cbn [setpixel_loop]. destruct (Z.leb_spec (iw im) x); [lia|]. destruct (Z.leb_spec (ih im) y); [lia|].
    cbn [orb negb]. rewrite (access_ptr m) by (auto; lia).
    rewrite store_ok by (apply px_inb1; auto; lia). cbn [bind].
    destruct (IH (upd m (px im x y 0) v)) as (m' & He & Hl & Hv & Hf).
    + apply (wf_same_len m); auto. intros b. apply len_upd.
    + intros x' y' H'. apply Hin. simpl; auto.
    + exists m'. split; [exact He|]. split; [|split].
      * eapply same_len_trans; [|exact Hl]. intros b. apply len_upd.
      * intros x' y' [E1|Hi]; [|auto]. injection E1 as -> ->.
        destruct (in_dec (fun a b : Z * Z => ltac:(decide equality; apply Z.eq_dec)) (x', y') pts) as [Hi|Hi]; auto.
        unfold pixel. rewrite Hf; [apply get_upd_same|]. intros x2 y2 H2 Heq.
        assert (x2 = x' /\ y2 = y') as [-> ->]; [|auto].
        destruct (Hin x2 y2) as [Hx2 Hy2]; [simpl; auto|].
        pose proof (px_inj m im 0 0 (iw im) (ih im) x' y' 0 x2 y2 0) as Hinj.
        rewrite !Z.add_0_l in Hinj. destruct Hinj as (? & ? & _); auto.
        -- constructor; lia.
        -- unfold inside; lia.
        -- unfold inside; lia.
      * intros p Hp. rewrite Hf by (intros; apply Hp; simpl; auto).
        apply get_upd_other. apply Hp. simpl; auto.
Qed.
