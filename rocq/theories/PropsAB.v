(** Property C169: GetGaussianKernel. *)
From Coq Require Import ZArith List Bool Reals Lia Lra.
From Verif Require Import Base Image ImgFun BaseProofs ReduceProofs Double Edge Filter Arith HaarProofs LightProofs FftProofs Warp Kernel.
From Coq Require Import Floats.SpecFloat.
Import ListNotations.
Open Scope Z_scope.

Ltac Zify.zify_post_hook ::= idtac.

(** ** Specification *)
Definition zup (n : Z) : list Z := map Z.of_nat (seq 0 (Z.to_nat n)).
Section SPEC.
Context (A : arith) (exp : carrier A -> carrier A) (pi : carrier A) (sigma : carrier A).
(** The value before scaling at the distance (dx, dy) from the centre. *)
Definition bell (dx dy : Z) : carrier A :=
  amul A (adiv A (aZ A 1) (amul A (amul A sigma (aZ A 2)) pi))
    (exp (adiv A (aopp A (aZ A (dx * dx + dy * dy))) (amul A sigma (aZ A 2)))).
(** Their sum, row by row. *)
Definition bell_total (k : Z) : carrier A :=
  fold_left (fun s j => fold_left (fun s i => aadd A s (bell (i - k) (j - k))) (zup (2 * k + 1)) s) (zup (2 * k + 1)) (aZ A 0).
(** The kernel of half size [k] in the middle of a picture. *)
Definition bell_at (w h k x y : Z) : carrier A :=
  if (Z.abs (x - w / 2) <=? k) && (Z.abs (y - h / 2) <=? k)
  then amul A (bell (x - w / 2) (y - h / 2)) (adiv A (aZ A 1) (bell_total k)) else aZ A 0.
End SPEC.
Definition kernel_fits (w h k : Z) : Prop := 3 <= w /\ 3 <= h /\ 1 <= k /\ 2 * k + 1 <= w /\ 2 * k + 1 <= h.

Definition C169_claim : Prop := forall A exp pi f w h k sigma, 0 <= w < W32 -> 0 <= h < W32 -> 0 <= k < W32 -> w * h < W32 ->
  (kernel_fits w h k /\ alt A sigma (aZ A 0) = false /\
   exists g, GetGaussianKernel A exp pi f w h k sigma = Ok g /\ alen g = w * h /\
     forall x y, 0 <= x < w -> 0 <= y < h -> aget g (y * w + x) = bell_at A exp pi sigma w h k x y) \/
  (~ (kernel_fits w h k /\ alt A sigma (aZ A 0) = false) /\ GetGaussianKernel A exp pi f w h k sigma = Throw f).
(** [kernelSize * 2 + 1] is computed modulo 2^32, so a half size of 2^31 + 1 passes the test. *)
Theorem C169_size_refuted : ~ C169_claim.
Proof.
  intros H. destruct (H (ieee FLOAT) (fun x => x) (tofZ FLOAT 3) (mkArr 0 (fun _ => tofZ FLOAT 0)) 3 3 2147483649 (tofZ FLOAT 1)
    ltac:(unfold W32; lia) ltac:(unfold W32; lia) ltac:(unfold W32; lia) ltac:(unfold W32; lia)) as [(F & _)|(_ & E)].
  - unfold kernel_fits in F. lia.
  - assert (N : forall r, r = UB -> r = @Throw (arr num) (arr num) (mkArr 0 (fun _ => tofZ FLOAT 0)) -> False) by (intros r -> D; discriminate D).
    apply (N _ (ltac:(vm_compute; reflexivity)) E).
Qed.
Print Assumptions C169_size_refuted.

Lemma square_small z : -32767 <= z <= 32767 -> 0 <= z * z <= 1073676289.
Proof. nia. Qed.
Section PROOF.
Context (A : arith) (exp : carrier A -> carrier A) (pi : carrier A) (sigma : carrier A) (w h k : Z).
Context (Hf : kernel_fits w h k) (Hs : w * h < W32).
Notation vec := (arr (carrier A)).
Let n := 2 * k + 1.
Let x0 := w / 2 - k.
Let y0 := h / 2 - k.
Definition psum (j i : Z) : carrier A :=
  fold_left (fun s i => aadd A s (bell A exp pi sigma (i - k) (j - k))) (zup i)
    (fold_left (fun s j => fold_left (fun s i => aadd A s (bell A exp pi sigma (i - k) (j - k))) (zup (2 * k + 1)) s) (zup j) (aZ A 0)).
Lemma zup_next i : 0 <= i -> zup (i + 1) = zup i ++ [i].
Proof.
  intros H. unfold zup. replace (Z.to_nat (i + 1)) with (S (Z.to_nat i)) by lia. rewrite seq_S, map_app. cbn [map Nat.add]. rewrite Z2Nat.id by lia. reflexivity.
Qed.
Lemma psum_next j i : 0 <= i -> psum j (i + 1) = aadd A (psum j i) (bell A exp pi sigma (i - k) (j - k)).
Proof. intros H. unfold psum. rewrite zup_next, fold_left_app by exact H. reflexivity. Qed.
Lemma psum_row j : 0 <= j -> psum j (2 * k + 1) = psum (j + 1) 0.
Proof. intros H. unfold psum. rewrite (zup_next j), fold_left_app by exact H. reflexivity. Qed.

(** Facts about the sizes. *)
Lemma half_size : k <= 32767.
Proof. destruct Hf as (H1 & H2 & H3 & H4 & H5). unfold W32 in Hs. destruct (Z_le_gt_dec k 32767); [assumption|]. exfalso. nia. Qed.
Lemma start_x : 0 <= x0 /\ x0 + n <= w.
Proof. destruct Hf as (H1 & H2 & H3 & H4 & H5). unfold x0, n. pose proof (Z.div_mod w 2 ltac:(lia)). pose proof (Z.mod_pos_bound w 2 ltac:(lia)). lia. Qed.
Lemma start_y : 0 <= y0 /\ y0 + n <= h.
Proof. destruct Hf as (H1 & H2 & H3 & H4 & H5). unfold y0, n. pose proof (Z.div_mod h 2 ltac:(lia)). pose proof (Z.mod_pos_bound h 2 ltac:(lia)). lia. Qed.
Lemma t_is : u32 (u32 (2 * k) + 1) = n.
Proof. pose proof half_size. destruct Hf as (H1 & H2 & H3 & H4 & H5). unfold n. rewrite (u32_small (2 * k)), u32_small by (unfold W32; lia). reflexivity. Qed.
Lemma start_is : kernel_start w h k = (0, y0 * w + x0).
Proof.
  pose proof start_y. destruct Hf as (H1 & H2 & H3 & H4 & H5). unfold kernel_start. fold y0. pose proof half_size.
  assert (0 <= y0 * w < W32) by (unfold n in *; nia).
  rewrite (u32_small y0), (u32_small (y0 * w)) by (unfold W32 in *; nia). unfold x0. f_equal. lia.
Qed.
Lemma end_is : u32 (n * w) = n * w.
Proof. pose proof start_y. destruct Hf as (H1 & H2 & H3 & H4 & H5). apply u32_small. unfold n in *. nia. Qed.

(** The first [j] rows and [i] elements of the next one are done. *)
Definition done (j i x y : Z) : bool :=
  (0 <=? x - x0) && (x - x0 <? n) && ((0 <=? y - y0) && (y - y0 <? j) || ((y - y0 =? j) && (x - x0 <? i))).
Definition state_ok (old new : Z -> Z -> carrier A) (j i : Z) (f : vec) : Prop :=
  alen f = w * h /\ forall x y, 0 <= x < w -> 0 <= y < h -> aget f (y * w + x) = if done j i x y then new x y else old x y.
Lemma cell_in j i : 0 <= j < n -> 0 <= i < n -> 0 <= (y0 + j) * w + (x0 + i) < w * h.
Proof. intros H1 H2. pose proof start_x. pose proof start_y. destruct Hf as (? & ? & _). nia. Qed.
Lemma state_next old new j i f : 0 <= j < n -> 0 <= i < n -> state_ok old new j i f ->
  state_ok old new j (i + 1) (aset f ((y0 + j) * w + (x0 + i)) (new (x0 + i) (y0 + j))).
Proof.
  intros Hj Hi [L V]. pose proof start_x as Sx. pose proof start_y as Sy. split; [rewrite alen_aset; exact L|].
  intros x y Hx Hy. rewrite aget_aset, V by assumption.
  destruct (Z.eqb_spec (y * w + x) ((y0 + j) * w + (x0 + i))) as [E|E].
  - apply flat_inj in E; [|lia|lia]. destruct E as [Ex Ey].
    assert (D : done j (i + 1) x y = true) by (unfold done; lia). rewrite D, Ex, Ey. reflexivity.
  - assert (D : done j (i + 1) x y = done j i x y).
    { assert (~ (x - x0 = i /\ y - y0 = j)) by (intros [Ea Eb]; apply E; replace x with (x0 + i) by lia; replace y with (y0 + j) by lia; reflexivity).
      unfold done. lia. }
    rewrite D. reflexivity.
Qed.
Lemma state_row old new j f : 0 <= j < n -> state_ok old new j n f -> state_ok old new (j + 1) 0 f.
Proof.
  intros Hj [L V]. split; [exact L|]. intros x y Hx Hy. rewrite V by assumption.
  assert (D : done (j + 1) 0 x y = done j n x y) by (unfold done; lia). rewrite D. reflexivity.
Qed.

Let value x y := bell A exp pi sigma (x - w / 2) (y - h / 2).
Lemma row_ok j f s : 0 <= j < n -> state_ok (fun _ _ => aZ A 0) value j 0 f -> s = psum j 0 ->
  exists f', kernel_row A exp pi w k sigma (padd (0, y0 * w + x0) (j * w)) ((j - k) * (j - k)) (f, s) = Ok (f', psum (j + 1) 0) /\
    state_ok (fun _ _ => aZ A 0) value (j + 1) 0 f'.
Proof.
  intros Hj Sf ->. pose proof half_size as Hk. pose proof start_x as Sx. pose proof start_y as Sy. destruct Hf as (_ & _ & H3 & _).
  unfold kernel_row. rewrite t_is. assert (Ek : to_s32 k = k) by (unfold to_s32, I32; destruct (Z.ltb_spec k 2147483648); lia). rewrite Ek.
  assert (S32 : forall E z, -2147483648 <= z < 2147483648 -> @s32 E z = Ok z).
  { intros E z Hz. unfold s32, I32. assert (C : (- (2147483648) <=? z) && (z <? 2147483648) = true) by lia. rewrite C. reflexivity. }
  rewrite S32 by lia. cbn [bind]. rewrite (walk_iterM n) by (unfold n; first [lia|reflexivity|f_equal; lia]).
  match goal with |- context [iterM _ 0 ?G ?s0] =>
    destruct (iterM_inv (fun i (r : Z * (vec * carrier A)) => fst r = i - k /\ state_ok (fun _ _ => aZ A 0) value j i (fst (snd r)) /\ snd (snd r) = psum j i)
      G (Z.to_nat n) 0 s0) as (r & E & I1 & I2 & I3) end.
  - cbn [fst snd]. split; [lia|]. split; [exact Sf|reflexivity].
  - intros i [px [g s]] Hi (I1 & I2 & I3). cbn [fst snd] in I1, I2, I3. subst px s. rewrite Z2Nat.id in Hi by (unfold n; lia).
    assert (B1 : -32767 <= i - k <= 32767) by (unfold n in *; lia). assert (B2 : -32767 <= j - k <= 32767) by (unfold n in *; lia).
    pose proof (square_small _ B1) as Q1. pose proof (square_small _ B2) as Q2.
    cbn [at_ combine map c0 nth padd fst snd]. rewrite (S32 _ ((i - k) * (i - k))) by lia. cbn [bind]. rewrite S32 by lia. cbn [bind].
    replace (y0 * w + x0 + j * w + i * 1) with ((y0 + j) * w + (x0 + i)) by lia.
    rewrite wr_ok by (destruct I2 as [-> _]; apply cell_in; lia). cbn [bind]. rewrite S32 by lia. cbn [bind].
    eexists. split; [reflexivity|]. cbn [fst snd]. split; [lia|].
    assert (Ev : kernel_value A exp pi sigma ((i - k) * (i - k) + (j - k) * (j - k)) = value (x0 + i) (y0 + j)).
    { unfold value, bell, kernel_value. unfold x0, y0. replace (w / 2 - k + i - w / 2) with (i - k) by lia. replace (h / 2 - k + j - h / 2) with (j - k) by lia. reflexivity. }
    split; [rewrite Ev; apply state_next; [exact Hj|lia|exact I2]|]. rewrite psum_next by lia. f_equal.
  - rewrite E. cbn [bind]. rewrite Z2Nat.id in * by (unfold n; lia). destruct r as [px [g s]]. cbn [fst snd] in *.
    exists g. split; [|apply state_row; [exact Hj|exact I2]]. rewrite <- psum_row by lia. rewrite I3. reflexivity.
Qed.
Lemma fill_ok : exists f, kernel_fill A exp pi w h k sigma (mkArr (u32 (w * h)) (fun _ => aZ A 0)) = Ok (f, bell_total A exp pi sigma k) /\
  state_ok (fun _ _ => aZ A 0) value n 0 f.
Proof.
  pose proof half_size as Hk. pose proof start_x as Sx. pose proof start_y as Sy. pose proof Hf as (H1 & H2 & H3 & _).
  unfold kernel_fill. rewrite t_is, start_is, end_is. assert (Ek : to_s32 k = k) by (unfold to_s32, I32; destruct (Z.ltb_spec k 2147483648); lia). rewrite Ek.
  assert (S32 : forall E z, -2147483648 <= z < 2147483648 -> @s32 E z = Ok z).
  { intros E z Hz. unfold s32, I32. assert (C : (- (2147483648) <=? z) && (z <? 2147483648) = true) by lia. rewrite C. reflexivity. }
  rewrite S32 by lia. cbn [bind]. rewrite (walk_iterM n) by (unfold n; first [lia|reflexivity]).
  rewrite (u32_small (w * h)) by nia.
  match goal with |- context [iterM _ 0 ?G ?s0] =>
    destruct (iterM_inv (fun j (r : Z * (vec * carrier A)) => fst r = j - k /\ state_ok (fun _ _ => aZ A 0) value j 0 (fst (snd r)) /\ snd (snd r) = psum j 0)
      G (Z.to_nat n) 0 s0) as (r & E & I1 & I2 & I3) end.
  - cbn [fst snd]. split; [lia|]. split; [|reflexivity]. split; [reflexivity|]. intros x y Hx Hy. cbn [aget]. destruct (done _ _ _ _) eqn:D; [|reflexivity].
    exfalso. unfold done in D. lia.
  - intros j [py [g s]] Hj (I1 & I2 & I3). cbn [fst snd] in I1, I2, I3. subst py. rewrite Z2Nat.id in Hj by (unfold n; lia).
    assert (B2 : -32767 <= j - k <= 32767) by (unfold n in *; lia). pose proof (square_small _ B2) as Q2.
    cbn [at_ combine map c0 nth fst snd]. rewrite S32 by lia. cbn [bind].
    destruct (row_ok j g s ltac:(lia) I2 I3) as (g' & E' & I2'). rewrite E'. cbn [bind]. rewrite S32 by lia. cbn [bind].
    eexists. split; [reflexivity|]. cbn [fst snd]. split; [lia|]. split; [exact I2'|reflexivity].
  - rewrite E. cbn [bind]. rewrite Z2Nat.id in * by (unfold n; lia). destruct r as [px [g s]]. cbn [fst snd] in *.
    exists g. split; [|exact I2]. rewrite I3. reflexivity.
Qed.
Lemma scale_ok c f old : state_ok old old 0 0 f ->
  exists f', kernel_scale A w h k c f = Ok f' /\ state_ok old (fun x y => amul A (old x y) c) n 0 f'.
Proof.
  intros Sf. pose proof half_size as Hk. pose proof start_x as Sx. pose proof start_y as Sy. pose proof Hf as (H1 & H2 & H3 & _).
  unfold kernel_scale. rewrite t_is, start_is, end_is. rewrite (walk_iterM n) by (unfold n; first [lia|reflexivity]).
  match goal with |- context [iterM _ 0 ?G ?s0] =>
    destruct (iterM_inv (fun j f => state_ok old (fun x y => amul A (old x y) c) j 0 f) G (Z.to_nat n) 0 s0) as (f' & E & I) end.
  - destruct Sf as [L V]. split; [exact L|]. intros x y Hx Hy. rewrite V by assumption. replace (done 0 0 x y) with false by (unfold done; lia). reflexivity.
  - intros j g Hj Sg. rewrite Z2Nat.id in Hj by (unfold n; lia). cbn [at_ combine map c0 nth fst snd].
    rewrite (walk_iterM n) by (unfold n; first [lia|reflexivity|f_equal; lia]).
    match goal with |- context [iterM _ 0 ?G ?s0] =>
      destruct (iterM_inv (fun i f => state_ok old (fun x y => amul A (old x y) c) j i f) G (Z.to_nat n) 0 s0 Sg) as (g' & E & I) end.
    + intros i u Hi Su. rewrite Z2Nat.id in Hi by (unfold n; lia). cbn [at_ combine map c0 nth padd fst snd].
      replace (y0 * w + x0 + j * w + i * 1) with ((y0 + j) * w + (x0 + i)) by lia.
      pose proof (cell_in j i ltac:(lia) ltac:(lia)) as Hc. pose proof Su as [L V].
      rewrite rd_ok by (rewrite L; exact Hc). cbn [bind]. rewrite wr_ok by (rewrite L; exact Hc).
      eexists. split; [reflexivity|]. rewrite V by lia. replace (done j i (x0 + i) (y0 + j)) with false by (unfold done; lia).
      apply (state_next old (fun x y => amul A (old x y) c)); [lia|lia|exact Su].
    + exists g'. split; [exact E|]. rewrite Z2Nat.id in I by (unfold n; lia). apply state_row; [lia|exact I].
  - exists f'. split; [exact E|]. rewrite Z2Nat.id in I by (unfold n; lia). exact I.
Qed.
End PROOF.

(** Every value of the vector, for each number type, each exp and each constant pi. *)
Theorem C169_kernel_partial A exp pi f w h k sigma : kernel_fits w h k -> w * h < W32 -> alt A sigma (aZ A 0) = false ->
  exists g, GetGaussianKernel A exp pi f w h k sigma = Ok g /\ alen g = w * h /\
    forall x y, 0 <= x < w -> 0 <= y < h -> aget g (y * w + x) = bell_at A exp pi sigma w h k x y.
Proof.
  intros F Hs Hg. pose proof F as (H1 & H2 & H3 & H4 & H5). pose proof (half_size w h k F Hs) as Hk.
  assert (Ea : kernel_args A w h k sigma = true).
  { unfold kernel_args. rewrite (u32_small (k * 2)), u32_small by (unfold W32; lia). rewrite Hg. lia. }
  unfold GetGaussianKernel. rewrite Ea. destruct (fill_ok A exp pi sigma w h k F Hs) as (g & E & [L V]). rewrite E. cbn [bind fst snd].
  set (old := fun x y => if done w h k (2 * k + 1) 0 x y then bell A exp pi sigma (x - w / 2) (y - h / 2) else aZ A 0).
  destruct (scale_ok A w h k F Hs (adiv A (aZ A 1) (bell_total A exp pi sigma k)) g old) as (g' & E' & [L' V']).
  { split; [exact L|]. intros x y Hx Hy. rewrite V by assumption. unfold old. destruct (done w h k 0 0 x y); reflexivity. }
  exists g'. split; [exact E'|]. split; [exact L'|]. intros x y Hx Hy. rewrite V' by assumption. unfold old, bell_at.
  assert (D : done w h k (2 * k + 1) 0 x y = (Z.abs (x - w / 2) <=? k) && (Z.abs (y - h / 2) <=? k)) by (unfold done; lia).
  rewrite <- D. destruct (done w h k (2 * k + 1) 0 x y); reflexivity.
Qed.
(** Everything else is refused, for half sizes below 2^31. *)
Theorem C169_rejects_partial A exp pi f w h k sigma : 0 <= w < W32 -> 0 <= h < W32 -> 0 <= k < 2147483648 ->
  ~ (kernel_fits w h k /\ alt A sigma (aZ A 0) = false) -> GetGaussianKernel A exp pi f w h k sigma = Throw f.
Proof.
  intros Hw Hh Hk N. unfold GetGaussianKernel. assert (E : kernel_args A w h k sigma = false); [|rewrite E; reflexivity].
  unfold kernel_args. rewrite (u32_small (k * 2)), u32_small by (unfold W32; lia).
  destruct (alt A sigma (aZ A 0)) eqn:Ea; [rewrite !orb_true_r; reflexivity|].
  assert (~ kernel_fits w h k) by (intros F; apply N; split; [exact F|reflexivity]). unfold kernel_fits in *. lia.
Qed.
(** The kernel is symmetric in both directions and, around its centre, in the diagonal. *)
Theorem C169_symmetric A exp pi f w h k sigma : kernel_fits w h k -> w * h < W32 -> alt A sigma (aZ A 0) = false ->
  exists g, GetGaussianKernel A exp pi f w h k sigma = Ok g /\
    forall dx dy, Z.abs dx <= k -> Z.abs dy <= k -> let v a b := aget g ((h / 2 + b) * w + (w / 2 + a)) in
      v dx dy = v (- dx) dy /\ v dx dy = v dx (- dy) /\ v dx dy = v dy dx.
Proof.
  intros F Hs Hg. destruct (C169_kernel_partial A exp pi f w h k sigma F Hs Hg) as (g & E & L & V). exists g. split; [exact E|].
  intros dx dy Hx Hy v. pose proof (start_x w h k F) as Sx. pose proof (start_y w h k F) as Sy.
  assert (Ev : forall a b, Z.abs a <= k -> Z.abs b <= k -> v a b = amul A (bell A exp pi sigma a b) (adiv A (aZ A 1) (bell_total A exp pi sigma k))).
  { intros a b Ha Hb. unfold v. rewrite V by lia. unfold bell_at. replace (w / 2 + a - w / 2) with a by lia. replace (h / 2 + b - h / 2) with b by lia.
    assert (C : (Z.abs a <=? k) && (Z.abs b <=? k) = true) by lia. rewrite C. reflexivity. }
  rewrite !Ev by lia. unfold bell.
  replace (- dx * - dx + dy * dy) with (dx * dx + dy * dy) by lia. replace (dx * dx + - dy * - dy) with (dx * dx + dy * dy) by lia.
  replace (dy * dy + dx * dx) with (dx * dx + dy * dy) by lia. repeat split.
Qed.

(** *** The sum in exact arithmetic *)
Fixpoint rsum (n : nat) (k : Z) (f : Z -> R) : R := match n with O => 0%R | S n => (f k + rsum n (k + 1) f)%R end.
Lemma rsum_ext n : forall k f g, (forall i, k <= i < k + Z.of_nat n -> f i = g i) -> rsum n k f = rsum n k g.
Proof. induction n as [|n IH]; intros k f g H; [reflexivity|]. cbn [rsum]. rewrite (H k), (IH (k + 1) f g) by (intros; try apply H; lia). reflexivity. Qed.
Lemma rsum_zero n : forall k f, (forall i, k <= i < k + Z.of_nat n -> f i = 0%R) -> rsum n k f = 0%R.
Proof. induction n as [|n IH]; intros k f H; [reflexivity|]. cbn [rsum]. rewrite (H k), (IH (k + 1) f) by (intros; try apply H; lia). lra. Qed.
Lemma rsum_app a : forall b k f, rsum (a + b) k f = (rsum a k f + rsum b (k + Z.of_nat a) f)%R.
Proof.
  induction a as [|a IH]; intros b k f; cbn [Nat.add rsum].
  - replace (k + Z.of_nat 0) with k by lia. lra.
  - rewrite IH. replace (k + 1 + Z.of_nat a) with (k + Z.of_nat (S a)) by lia. lra.
Qed.
Lemma rsum_shift n : forall k d f, rsum n (k + d) f = rsum n k (fun i => f (i + d)).
Proof. induction n as [|n IH]; intros k d f; [reflexivity|]. cbn [rsum]. replace (k + d + 1) with (k + 1 + d) by lia. rewrite IH. reflexivity. Qed.
Lemma rsum_scale n : forall k c f, rsum n k (fun i => (f i * c)%R) = (rsum n k f * c)%R.
Proof. induction n as [|n IH]; intros k c f; cbn [rsum]; [lra|]. rewrite IH. lra. Qed.
Lemma rsum_pos n : forall k f, (forall i, (0 < f i)%R) -> (0 <= rsum n k f)%R /\ (n <> O -> (0 < rsum n k f)%R).
Proof.
  induction n as [|n IH]; intros k f H; cbn [rsum]; [split; [lra|congruence]|]. destruct (IH (k + 1) f H) as [P _]. pose proof (H k). split; [lra|intros _; lra].
Qed.
(** Only the part [a, a + m) counts. *)
Lemma rsum_part a m N f : 0 <= a -> 0 <= m -> a + m <= N -> (forall i, 0 <= i < N -> ~ (a <= i < a + m) -> f i = 0%R) ->
  rsum (Z.to_nat N) 0 f = rsum (Z.to_nat m) 0 (fun i => f (i + a)).
Proof.
  intros Ha Hm HN Z. replace (Z.to_nat N) with (Z.to_nat a + (Z.to_nat m + Z.to_nat (N - a - m)))%nat by lia. rewrite !rsum_app.
  rewrite (rsum_zero (Z.to_nat a)) by (intros i Hi; apply Z; lia). rewrite (rsum_zero (Z.to_nat (N - a - m))) by (intros i Hi; apply Z; lia).
  rewrite <- rsum_shift. rewrite Z2Nat.id by lia. lra.
Qed.
Lemma fold_rsum g n : forall k s, fold_left (fun s i => (s + g i)%R) (map Z.of_nat (seq k n)) s = (s + rsum n (Z.of_nat k) g)%R.
Proof.
  induction n as [|n IH]; intros k s; cbn [seq map fold_left rsum]; [lra|]. rewrite IH. replace (Z.of_nat (S k)) with (Z.of_nat k + 1) by lia. lra.
Qed.
Lemma fold_swap (G : Z -> R -> R) (g : Z -> R) : (forall a r, G a r = (r + g a)%R) -> forall l r, fold_left (fun s j => G j s) l r = fold_left (fun s j => (s + g j)%R) l r.
Proof. intros H l. induction l as [|a l IH]; intros r; cbn [fold_left]; [reflexivity|]. rewrite H. apply IH. Qed.
Lemma total_rsum exp pi sigma k : bell_total exact exp pi sigma k =
  rsum (Z.to_nat (2 * k + 1)) 0 (fun j => rsum (Z.to_nat (2 * k + 1)) 0 (fun i => bell exact exp pi sigma (i - k) (j - k))).
Proof.
  unfold bell_total, zup. cbn [aadd exact aZ carrier]. set (N := Z.to_nat (2 * k + 1)).
  transitivity (fold_left (fun s j => (s + rsum N 0 (fun i => bell exact exp pi sigma (i - k) (j - k)))%R) (map Z.of_nat (seq 0 N)) 0%R).
  - apply (fold_swap (fun j s => fold_left (fun s i => (s + bell exact exp pi sigma (i - k) (j - k))%R) (map Z.of_nat (seq 0 N)) s)).
    intros a r. apply (fold_rsum (fun i => bell exact exp pi sigma (i - k) (a - k)) N 0 r).
  - rewrite fold_rsum. cbn. lra.
Qed.
(** With a positive sigma and a positive exponential function the values sum to 1. *)
Theorem C169_sum_exact exp pi f w h k sigma : kernel_fits w h k -> w * h < W32 -> (0 < sigma)%R -> (0 < pi)%R -> (forall x, (0 < exp x)%R) ->
  exists g, GetGaussianKernel exact exp pi f w h k sigma = Ok g /\
    rsum (Z.to_nat h) 0 (fun y => rsum (Z.to_nat w) 0 (fun x => aget g (y * w + x))) = 1%R /\
    forall x y, 0 <= x < w -> 0 <= y < h -> (0 <= aget g (y * w + x))%R.
Proof.
  intros F Hs Hg Hp He. assert (Hlt : alt exact sigma (aZ exact 0) = false) by (cbn; unfold Rltb; destruct (Rlt_dec sigma 0); [lra|reflexivity]).
  destruct (C169_kernel_partial exact exp pi f w h k sigma F Hs Hlt) as (g & E & L & V). exists g. split; [exact E|].
  pose proof (start_x w h k F) as Sx. pose proof (start_y w h k F) as Sy. pose proof F as (H1 & H2 & H3 & _).
  assert (Pb : forall dx dy, (0 < bell exact exp pi sigma dx dy)%R).
  { intros dx dy. unfold bell. cbn [exact amul adiv aZ carrier]. apply Rmult_lt_0_compat; [|apply He]. unfold Rdiv. rewrite Rmult_1_l.
    apply Rinv_0_lt_compat. apply Rmult_lt_0_compat; [lra|exact Hp]. }
  set (T := bell_total exact exp pi sigma k) in *.
  assert (PT : (0 < T)%R).
  { unfold T. rewrite total_rsum. apply rsum_pos; [|lia]. intros j. apply rsum_pos; [|lia]. intros i. apply Pb. }
  split.
  - rewrite (rsum_part (h / 2 - k) (2 * k + 1) h) by (try lia; intros y Hy Hn; apply rsum_zero; intros x Hx; rewrite V by lia; unfold bell_at;
      assert (C : (Z.abs (x - w / 2) <=? k) && (Z.abs (y - h / 2) <=? k) = false) by lia; rewrite C; reflexivity).
    assert (ET : T = rsum (Z.to_nat (2 * k + 1)) 0 (fun j => rsum (Z.to_nat (2 * k + 1)) 0 (fun i => bell exact exp pi sigma (i - k) (j - k)))) by apply total_rsum.
    transitivity (T * / T)%R; [|field; lra]. rewrite ET at 1. rewrite <- rsum_scale. apply rsum_ext. intros j Hj. rewrite <- rsum_scale.
    rewrite (rsum_part (w / 2 - k) (2 * k + 1) w).
    + apply rsum_ext. intros i Hi. rewrite V by lia. unfold bell_at. replace (i + (w / 2 - k) - w / 2) with (i - k) by lia. replace (j + (h / 2 - k) - h / 2) with (j - k) by lia.
      assert (C : (Z.abs (i - k) <=? k) && (Z.abs (j - k) <=? k) = true) by lia. rewrite C. fold T. cbn [exact amul adiv aZ carrier]. unfold Rdiv. lra.
    + lia.
    + lia.
    + lia.
    + intros x Hx Hn. rewrite V by lia. unfold bell_at.
      assert (C : (Z.abs (x - w / 2) <=? k) && (Z.abs (j + (h / 2 - k) - h / 2) <=? k) = false) by lia. rewrite C. reflexivity.
  - intros x y Hx Hy. rewrite V by assumption. unfold bell_at. destruct (_ && _); [|cbn; lra]. fold T. cbn [exact amul adiv aZ carrier].
    apply Rmult_le_pos; [apply Rlt_le, Pb|]. unfold Rdiv. rewrite Rmult_1_l. apply Rlt_le, Rinv_0_lt_compat, PT.
Qed.

(** *** sigma = 0 *)
Definition numbers_claim : Prop := forall exp pi f w h k sigma, kernel_fits w h k -> w * h < W32 -> exp S754_nan = S754_nan ->
  alt (ieee FLOAT) sigma (aZ (ieee FLOAT) 0) = false -> sigma <> S754_nan ->
  exists g, GetGaussianKernel (ieee FLOAT) exp pi f w h k sigma = Ok g /\ forall x y, 0 <= x < w -> 0 <= y < h -> aget g (y * w + x) <> S754_nan.
Lemma nan_add_l x : aadd (ieee FLOAT) S754_nan x = S754_nan.
Proof. reflexivity. Qed.
Lemma nan_add_r x : aadd (ieee FLOAT) x S754_nan = S754_nan.
Proof. destruct x; reflexivity. Qed.
Lemma nan_mul_r x : amul (ieee FLOAT) x S754_nan = S754_nan.
Proof. destruct x; reflexivity. Qed.
Lemma fold_nan (g : Z -> num) l : fold_left (fun s i => aadd (ieee FLOAT) s (g i)) l S754_nan = S754_nan.
Proof. induction l as [|a l IH]; [reflexivity|]. cbn [fold_left]. rewrite nan_add_l. exact IH. Qed.
Lemma fold_hits (g : Z -> num) l : forall s, (exists i, In i l /\ g i = S754_nan) -> fold_left (fun s i => aadd (ieee FLOAT) s (g i)) l s = S754_nan.
Proof.
  induction l as [|a l IH]; intros s (i & Hi & E); [destruct Hi|]. cbn [fold_left]. destruct Hi as [->|Hi]; [rewrite E, nan_add_r; apply fold_nan|].
  apply IH. eauto.
Qed.
(** Sigma 0 is accepted; every value of the kernel is then a NaN: the exponent at the centre is 0 / 0. *)
Theorem C169_zero_sigma exp pi f w h k : kernel_fits w h k -> w * h < W32 -> exp S754_nan = S754_nan ->
  exists g, GetGaussianKernel (ieee FLOAT) exp pi f w h k (tofZ FLOAT 0) = Ok g /\
    forall x y, Z.abs (x - w / 2) <= k -> Z.abs (y - h / 2) <= k -> aget g (y * w + x) = S754_nan.
Proof.
  intros F Hs He. destruct (C169_kernel_partial (ieee FLOAT) exp pi f w h k (tofZ FLOAT 0) F Hs eq_refl) as (g & E & L & V). exists g. split; [exact E|].
  pose proof (start_x w h k F) as Sx. pose proof (start_y w h k F) as Sy. pose proof F as (H1 & H2 & H3 & _).
  assert (T : bell_total (ieee FLOAT) exp pi (tofZ FLOAT 0) k = S754_nan).
  { unfold bell_total. assert (Hin : In k (zup (2 * k + 1))) by (unfold zup; apply in_map_iff; exists (Z.to_nat k); split; [apply Z2Nat.id; lia|apply in_seq; lia]).
    assert (B0 : bell (ieee FLOAT) exp pi (tofZ FLOAT 0) (k - k) (k - k) = S754_nan).
    { rewrite Z.sub_diag. unfold bell. change (adiv (ieee FLOAT) (aopp (ieee FLOAT) (aZ (ieee FLOAT) (0 * 0 + 0 * 0))) (amul (ieee FLOAT) (tofZ FLOAT 0) (aZ (ieee FLOAT) 2))) with S754_nan.
      rewrite He. apply nan_mul_r. }
    revert Hin. generalize (zup (2 * k + 1)) at 1 3 as l. generalize (aZ (ieee FLOAT) 0) as s.
    assert (Stay : forall l, fold_left (fun s j => fold_left (fun s i => aadd (ieee FLOAT) s (bell (ieee FLOAT) exp pi (tofZ FLOAT 0) (i - k) (j - k))) (zup (2 * k + 1)) s) l S754_nan = S754_nan).
    { induction l as [|a l IH]; [reflexivity|]. cbn [fold_left].
      rewrite (fold_nan (fun i => bell (ieee FLOAT) exp pi (tofZ FLOAT 0) (i - k) (a - k))). exact IH. }
    assert (Hin' : In k (zup (2 * k + 1))) by (unfold zup; apply in_map_iff; exists (Z.to_nat k); split; [apply Z2Nat.id; lia|apply in_seq; lia]).
    intros s l. revert s. induction l as [|a l IH]; intros s Hin; [destruct Hin|]. cbn [fold_left]. destruct Hin as [->|Hin]; [|apply IH; exact Hin].
    rewrite (fold_hits (fun i => bell (ieee FLOAT) exp pi (tofZ FLOAT 0) (i - k) (k - k))) by (exists k; split; [exact Hin'|exact B0]). apply Stay. }
  intros x y Hx Hy. rewrite V by lia. unfold bell_at. assert (C : (Z.abs (x - w / 2) <=? k) && (Z.abs (y - h / 2) <=? k) = true) by lia. rewrite C, T.
  change (adiv (ieee FLOAT) (aZ (ieee FLOAT) 1) S754_nan) with S754_nan. apply nan_mul_r.
Qed.
Theorem C169_numbers_refuted : ~ numbers_claim.
Proof.
  intros H. assert (F : kernel_fits 3 3 1) by (unfold kernel_fits; lia). assert (Hs : 3 * 3 < W32) by (unfold W32; lia).
  destruct (H (fun x => x) (tofZ FLOAT 3) (mkArr 0 (fun _ => tofZ FLOAT 0)) 3 3 1 (tofZ FLOAT 0) F Hs eq_refl eq_refl ltac:(discriminate)) as (g & E & N).
  destruct (C169_zero_sigma (fun x => x) (tofZ FLOAT 3) (mkArr 0 (fun _ => tofZ FLOAT 0)) 3 3 1 F Hs eq_refl) as (g' & E' & N').
  rewrite E in E'. injection E' as <-. apply (N 1 1); [lia|lia|]. apply N'; cbn; lia.
Qed.
(** A 5 x 4 vector with a 3 x 3 kernel whose first element is in column 1 of row 1. *)
Example C169_case : kernel_fits 5 4 1 /\ 5 * 4 < W32 /\ alt (ieee FLOAT) (tofZ FLOAT 1) (aZ (ieee FLOAT) 0) = false /\
  (forall x y, 0 <= x < 5 -> 0 <= y < 4 -> (Z.abs (x - 5 / 2) <=? 1) && (Z.abs (y - 4 / 2) <=? 1) = (1 <=? x) && (x <=? 3) && (1 <=? y) && (y <=? 3)) /\
  kernel_fits 2147483647 3 1 /\ ~ kernel_fits 3 3 2147483649.
Proof.
  split; [unfold kernel_fits; lia|]. split; [reflexivity|]. split; [reflexivity|]. split; [|unfold kernel_fits; lia].
  intros x y Hx Hy. change (5 / 2) with 2. change (4 / 2) with 2. lia.
Qed.
Print Assumptions C169_kernel_partial.
Print Assumptions C169_rejects_partial.
Print Assumptions C169_symmetric.
Print Assumptions C169_sum_exact.
Print Assumptions C169_zero_sigma.
Print Assumptions C169_numbers_refuted.
