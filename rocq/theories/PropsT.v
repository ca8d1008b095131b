(** Properties C117 to C123: points, lines and angles of src/math/math_base.h. *)
From Coq Require Import ZArith List Bool Reals Lia Lra Psatz Floats.SpecFloat.
From Flocq Require Import Core Relative IEEE754.BinarySingleNaN.
From Verif Require Import Base Double DoubleProofs Edge Filter NumProofs Arith Geom GeomSpec GeomProofs PropsS.
From Coq Require Import Floats.SpecFloat.
Import ListNotations.
Open Scope R_scope.

(** ** C117 *)

(** A line made from two points that are not equal for the library, and a line made from a point
    and an angle, measure the straight line of geometry. *)
Theorem C117_through eps at2 a b : 0 < eps ->
  (eps <= Rabs (X a - X b) \/ eps <= Rabs (Y a - Y b)) ->
  let L := exact_geom eps at2 in
  measures (line_through exact L a b) (join a b) /\ join a b a /\ join a b b.
Proof.
  intros P N L.
  assert (E : eq2 exact L a b = false).
  { unfold eq2. cbn. unfold exact_equal. fold (X a) (X b) (Y a) (Y b).
    destruct (Rltb_spec (Rabs (X a - X b)) eps); [|reflexivity].
    destruct (Rltb_spec (Rabs (Y a - Y b)) eps); [lra|reflexivity]. }
  split.
  - eapply measures_ext; [|apply unit_measures, through_unit; assumption].
    intros q. apply through_points; assumption.
  - split; [exists 0|exists 1]; split; ring.
Qed.
Theorem C117_at eps at2 a t : let L := exact_geom eps at2 in measures (line_at exact L a t) (ray a t).
Proof. intros L. apply unit_measures, at_unit. Qed.

(** The line through (1,1) and (4,5): the point (2,7) is 14/5 away from it. *)
Example C117_case at2 : let L := exact_geom (/ 1000000000) at2 in let l := line_through exact L (xy 1 1) (xy 4 5) in
  measures l (join (xy 1 1) (xy 4 5)) /\ distance exact l (xy 2 7) = 14 / 5.
Proof.
  intros L l.
  assert (H : measures l (join (xy 1 1) (xy 4 5))).
  { apply C117_through; [lra|]. left. unfold X, xy. cbn. rewrite Rabs_left by lra. lra. }
  split; [exact H|].
  assert (S : sqrt ((4 - 1) * (4 - 1) + (5 - 1) * (5 - 1)) = 5).
  { replace ((4 - 1) * (4 - 1) + (5 - 1) * (5 - 1)) with (5 * 5) by ring. apply sqrt_square. lra. }
  assert (E : eq2 exact L (xy 1 1) (xy 4 5) = false).
  { unfold eq2, L. cbn. unfold exact_equal. destruct (Rltb_spec (Rabs (1 - 4)) (/ 1000000000)) as [K|K]; [|reflexivity].
    rewrite Rabs_left in K by lra. lra. }
  destruct (through_dir (/ 1000000000) at2 ltac:(lra) (xy 1 1) (xy 4 5) E) as (_ & Dx & Dy).
  rewrite distance_abs. unfold signed. unfold l. fold L in Dx, Dy. rewrite Dx, Dy.
  change (X (xy 4 5)) with 4. change (X (xy 1 1)) with 1. change (Y (xy 4 5)) with 5. change (Y (xy 1 1)) with 1.
  change (X (lpos (line_through exact L (xy 1 1) (xy 4 5)))) with 1.
  change (Y (lpos (line_through exact L (xy 1 1) (xy 4 5)))) with 1.
  change (X (xy 2 7)) with 2. change (Y (xy 2 7)) with 7. rewrite S. rewrite Rabs_left; lra.
Qed.
Print Assumptions C117_through.
Print Assumptions C117_at.

(** ** C118 *)

(** Every pair of different points makes the line through them, and every line the class makes
    separates its points from the others. *)
Definition C118_claim : Prop := forall eps at2 a b, 0 < eps -> a <> b ->
  let L := exact_geom eps at2 in measures (line_through exact L a b) (join a b).
Definition C118_default_claim : Prop := exists S, measures (line_default exact) S.

(** Points closer than the tolerance make a horizontal line. *)
Theorem C118_near_refuted : ~ C118_claim.
Proof.
  intros H. set (a := xy 0 0). set (b := xy 0 (1 / 2)).
  assert (N : a <> b).
  { intros E. apply (f_equal Y) in E. unfold Y, a, b, xy in E. cbn in E. lra. }
  destruct (H 1 (fun _ _ => 0) a b ltac:(lra) N) as (_ & M). clear H. set (L := exact_geom 1 _) in *.
  destruct (M b) as (_ & _ & _ & I & _).
  assert (J : join a b b) by (exists 1; split; ring).
  apply I in J. rewrite distance_abs in J. unfold signed in J.
  assert (E : eq2 exact L a b = true).
  { unfold eq2, L. cbn. unfold exact_equal. destruct (Rltb_spec (Rabs (0 - 0)) 1) as [_|K].
    - destruct (Rltb_spec (Rabs (0 - 1 / 2)) 1) as [_|K]; [reflexivity|]. rewrite Rabs_left in K by lra. lra.
    - rewrite Rminus_0_r, Rabs_R0 in K. lra. }
  destruct (near_dir 1 (fun _ _ => 0) a b E) as (Dx & Dy). fold L in Dx, Dy. rewrite Dx, Dy in J.
  change (X b) with 0 in J. change (Y b) with (1 / 2) in J.
  change (X (lpos (line_through exact L a b))) with 0 in J. change (Y (lpos (line_through exact L a b))) with 0 in J.
  rewrite Rabs_left in J; lra.
Qed.
(** A line that was not given any points, and the best fit of less than two points, is at
    distance 0 from everything, so that the projection is not the nearest point. *)
Theorem C118_default_refuted : ~ C118_default_claim.
Proof.
  intros (S & S0 & H). destruct (H (xy 1 0)) as (H1 & H2 & _).
  rewrite distance_abs in H2. unfold signed in H2. unfold dist in H2. rewrite projection_x, projection_y in H2.
  unfold along in H2. unfold line_default, X, Y, xy in H2. cbn in H2.
  replace (0 * (1 - 0) + 0 * (0 - 0)) with 0 in H2 by ring.
  replace ((1 - (0 + 0 * 0)) * (1 - (0 + 0 * 0)) + (0 - (0 + 0 * 0)) * (0 - (0 + 0 * 0))) with 1 in H2 by ring.
  rewrite sqrt_1, Rabs_R0 in H2. lra.
Qed.
Theorem C118_default A L l p : (length l < 2)%nat ->
  bestFittingLine A L l = line_default A /\ distance exact (line_default exact) p = 0.
Proof.
  intros H. split.
  - unfold bestFittingLine. destruct (Z.ltb_spec (Z.of_nat (length l)) 2); [reflexivity|lia].
  - rewrite distance_abs. unfold signed, line_default, X, Y. cbn.
    replace (0 * (px2 p - 0) + 0 * (0 - py2 p)) with 0 by ring. apply Rabs_R0.
Qed.
(** What holds: the line of two close points contains the first and misses the second by less
    than the tolerance. *)
Theorem C118_near_partial eps at2 a b : 0 < eps -> Rabs (X a - X b) < eps -> Rabs (Y a - Y b) < eps ->
  let L := exact_geom eps at2 in
  measures (line_through exact L a b) (ray a 0) /\ distance exact (line_through exact L a b) a = 0 /\
  distance exact (line_through exact L a b) b < eps.
Proof.
  intros P Nx Ny L.
  assert (E : eq2 exact L a b = true).
  { unfold eq2. cbn. unfold exact_equal. fold (X a) (X b) (Y a) (Y b).
    destruct (Rltb_spec (Rabs (X a - X b)) eps); [|lra]. destruct (Rltb_spec (Rabs (Y a - Y b)) eps); [reflexivity|lra]. }
  destruct (near_dir eps at2 a b E) as (Dx & Dy). fold L in Dx, Dy.
  assert (U : unit_dir (line_through exact L a b)) by (unfold unit_dir; rewrite Dx, Dy; ring).
  assert (M : measures (line_through exact L a b) (ray a 0)).
  { eapply measures_ext; [|apply unit_measures, U]. intros q. unfold points, ray. rewrite Dx, Dy, cos_0, sin_0.
    change (lpos (line_through exact L a b)) with a. reflexivity. }
  split; [exact M|]. split.
  - apply M. exists 0. split; ring.
  - rewrite distance_abs. unfold signed. rewrite Dx, Dy. change (lpos (line_through exact L a b)) with a.
    replace (0 * (X b - X a) + 1 * (Y a - Y b)) with (Y a - Y b) by ring. exact Ny.
Qed.
Example C118_case at2 : let L := exact_geom 1 at2 in
  distance exact (line_through exact L (xy 0 0) (xy 0 (1 / 2))) (xy 0 (1 / 2)) < 1.
Proof.
  apply C118_near_partial; [lra| |]; unfold X, Y, xy; cbn.
  - rewrite Rminus_0_r, Rabs_R0. lra.
  - rewrite Rabs_left; lra.
Qed.
Print Assumptions C118_near_refuted.
Print Assumptions C118_default_refuted.
Print Assumptions C118_default.
Print Assumptions C118_near_partial.

(** ** C119 *)

(** The two sets have exactly one common point. *)
Definition meet_at (S T : pt -> Prop) (p : pt) : Prop := S p /\ T p /\ forall q, S q -> T q -> q = p.
Definition C119_claim : Prop := forall eps at2 a s b t, 0 < eps ->
  let L := exact_geom eps at2 in
  match intersection exact L (line_at exact L a s) (line_at exact L b t) with
  | Some p => meet_at (ray a s) (ray b t) p
  | None => forall p, ~ meet_at (ray a s) (ray b t) p
  end.

Lemma small_angle : 0 < sin (/ 2) /\ 0 < cos (/ 2).
Proof.
  pose proof PI2_1. split.
  - apply sin_gt_0; lra.
  - apply cos_gt_0; lra.
Qed.
(** Lines at a small angle are taken for parallel ones. *)
Theorem C119_claim_refuted : ~ C119_claim.
Proof.
  intros H. set (at2 := fun _ _ : R => 0). specialize (H 1 at2 (xy 0 0) 0 (xy 0 0) (/ 2) ltac:(lra)). cbv zeta in H.
  set (L := exact_geom 1 at2) in *. set (l := line_at exact L _ _) in *. set (m := line_at exact L (xy 0 0) (/ 2)) in *.
  assert (C : crossing l m = - sin (/ 2)).
  { unfold crossing, l, m, X, Y. cbn. rewrite sin_0, cos_0. ring. }
  assert (E : intersection exact L l m = None).
  { apply intersection_none, parallel_iff. rewrite C, Rabs_Ropp. pose proof (SIN_bound (/ 2)).
    pose proof small_angle. rewrite Rabs_right by lra. lra. }
  rewrite E in H. apply (H (xy 0 0)). unfold meet_at.
  split; [exists 0; split; ring|]. split; [exists 0; split; ring|].
  intros q (u & Hx & Hy) (v & Hx' & Hy').
  rewrite sin_0, cos_0 in *. change (X (xy 0 0)) with 0 in *. change (Y (xy 0 0)) with 0 in *.
  assert (V : v = 0). { pose proof small_angle. assert (v * sin (/ 2) = 0) by lra. apply Rmult_integral in H1. lra. }
  subst v. apply pt_eq; [change (X (xy 0 0)) with 0|change (Y (xy 0 0)) with 0]; lra.
Qed.
(** What is reported is the only common point; nothing is reported exactly when the sine of the
    angle between the lines is less than ten times the tolerance, so never for parallel lines. *)
Theorem C119_partial eps at2 a s b t : 0 < eps ->
  let L := exact_geom eps at2 in let l := line_at exact L a s in let m := line_at exact L b t in
  (forall p, intersection exact L l m = Some p -> meet_at (ray a s) (ray b t) p) /\
  (intersection exact L l m = None <-> Rabs (sin (s - t)) < 10 * eps) /\
  (isParallel exact L l m = true <-> intersection exact L l m = None) /\
  (isIntersect exact L l m = true <-> exists p, intersection exact L l m = Some p).
Proof.
  intros P L l m.
  assert (C : crossing l m = sin (s - t)).
  { rewrite sin_minus. reflexivity. }
  split; [|split; [|split]].
  - intros p E. exact (intersection_some eps at2 P l m p E).
  - unfold L. rewrite intersection_none, parallel_iff, C. split; lra.
  - symmetry. apply intersection_none.
  - unfold isIntersect. pose proof (intersection_none eps at2 l m) as I. fold L in I.
    destruct (intersection exact L l m) as [p|], (isParallel exact L l m); cbn; split; try congruence.
    + intros _. destruct I as [_ I]. discriminate (I eq_refl).
    + eauto.
    + intros (p & E). congruence.
    + intros _. destruct I as [I _]. discriminate (I eq_refl).
Qed.
Theorem C119_points_partial eps at2 a b c d p : 0 < eps ->
  (eps <= Rabs (X a - X b) \/ eps <= Rabs (Y a - Y b)) -> (eps <= Rabs (X c - X d) \/ eps <= Rabs (Y c - Y d)) ->
  let L := exact_geom eps at2 in
  intersection exact L (line_through exact L a b) (line_through exact L c d) = Some p ->
  meet_at (join a b) (join c d) p.
Proof.
  intros P N N' L E. apply intersection_some in E; [|exact P]. destruct E as (E1 & E2 & E3).
  destruct (C117_through eps at2 a b P N) as ((_ & M1) & _). destruct (C117_through eps at2 c d P N') as ((_ & M2) & _).
  fold L in M1, M2.
  assert (F : forall u v q, (eps <= Rabs (X u - X v) \/ eps <= Rabs (Y u - Y v)) -> (points (line_through exact L u v) q <-> join u v q)).
  { intros u v q Nuv. apply through_points; [exact P|]. unfold eq2, L. cbn. unfold exact_equal. fold (X u) (X v) (Y u) (Y v).
    destruct (Rltb_spec (Rabs (X u - X v)) eps); [|reflexivity].
    destruct (Rltb_spec (Rabs (Y u - Y v)) eps); [lra|reflexivity]. }
  split; [apply F; assumption|]. split; [apply F; assumption|].
  intros q Hq Hq'. apply E3; apply F; assumption.
Qed.
(** A horizontal and a vertical line meet at the expected point. *)
Example C119_case at2 : let L := exact_geom (/ 1000000000) at2 in
  exists p, intersection exact L (line_at exact L (xy 3 4) 0) (line_at exact L (xy 5 6) (PI / 2)) = Some p /\ X p = 5 /\ Y p = 4.
Proof.
  intros L. destruct (C119_partial (/ 1000000000) at2 (xy 3 4) 0 (xy 5 6) (PI / 2) ltac:(lra)) as (H1 & H2 & _).
  fold L in H1, H2. cbv zeta in H1, H2.
  destruct (intersection exact L (line_at exact L (xy 3 4) 0) (line_at exact L (xy 5 6) (PI / 2))) as [p|] eqn:E.
  - exists p. split; [reflexivity|]. destruct (H1 p eq_refl) as ((u & Hx & Hy) & (v & Hx' & Hy') & _).
    rewrite sin_0, cos_0 in *. rewrite sin_PI2, cos_PI2 in *.
    change (X (xy 3 4)) with 3 in *. change (Y (xy 3 4)) with 4 in *. change (X (xy 5 6)) with 5 in *. lra.
  - exfalso. destruct H2 as [H2 _]. specialize (H2 eq_refl).
    replace (0 - PI / 2) with (- (PI / 2)) in H2 by ring. rewrite sin_neg, sin_PI2, Rabs_Ropp, Rabs_R1 in H2. lra.
Qed.
Print Assumptions C119_claim_refuted.
Print Assumptions C119_partial.
Print Assumptions C119_points_partial.

(** ** C120 *)

(** No line has a smaller sum of squared distances. *)
Definition C120_claim : Prop := forall eps at2 (l : list pt) a t, 0 < eps -> is_atan2 at2 -> (2 <= length l)%nat ->
  let L := exact_geom eps at2 in
  errors (bestFittingLine exact L l) l <= errors (line_at exact L a t) l.

(** What holds: the line passes through the centre; it has the smallest squared errors along the
    axis in which the points are spread less. *)
Theorem C120_fit_partial eps at2 (l : list pt) : is_atan2 at2 -> (2 <= length l)%nat ->
  let L := exact_geom eps at2 in let m := bestFittingLine exact L l in
  measures m (points m) /\
  points m (xy (mean X l) (mean Y l)) /\
  (spread Y l < spread X l -> exists a b, (forall q, points m q <-> Y q = a + b * X q) /\
     forall a' b', errors_y l a b <= errors_y l a' b') /\
  (spread X l <= spread Y l -> 0 < spread Y l -> exists a b, (forall q, points m q <-> X q = a + b * Y q) /\
     forall a' b', errors_x l a b <= errors_x l a' b') /\
  (spread X l = 0 -> spread Y l = 0 -> forall q, points m q <-> Y q = mean Y l).
Proof.
  intros HA Hl L m.
  assert (U : unit_dir m) by (unfold m, L; rewrite fit_eq by exact Hl; apply at_unit).
  split; [apply unit_measures, U|]. split; [|split; [|split]].
  - unfold m, L. rewrite fit_eq by exact Hl. exists 0. split; cbn; ring.
  - intros W. apply wide_iff in W; [|exact Hl]. do 2 eexists. split.
    + intros q. apply fit_wide; assumption.
    + intros a' b'. apply best_y; [assumption|]. pose proof (sy_nonneg l Hl). lra.
  - intros W P. apply tall_iff in W; [|exact Hl]. apply sy_pos_iff in P; [|exact Hl]. do 2 eexists. split.
    + intros q. apply fit_tall; assumption.
    + intros a' b'. apply best_x; assumption.
  - intros Zx Zy q. rewrite spread_x in Zx by exact Hl. rewrite spread_y in Zy by exact Hl.
    pose proof (n_pos l Hl) as N. apply Rmult_integral in Zx, Zy. unfold m, L. rewrite fit_eq by exact Hl.
    set (sx := _ / _ - mean X l * mean X l) in *. set (sy := _ / _ - mean Y l * mean Y l) in *.
    assert (Ex : sx = 0) by lra. assert (Ey : sy = 0) by lra.
    (* the covariance vanishes too *)
    pose proof (errors_y_eq l Hl (mean Y l) 0) as K. cbv zeta in K.
    assert (C : total (fun p => X p * Y p) l / INR (length l) - mean X l * mean Y l = 0).
    { pose proof (total_nonneg (fun p => (Y p - mean Y l - 1 * X p) * (Y p - mean Y l - 1 * X p)) l) as K1.
      assert (A1 : forall a b, 0 <= errors_y l a b) by (intros; apply total_nonneg; intros; apply Rle_0_sqr).
      clear K K1. set (c := _ - _).
      assert (B1 := A1 (mean Y l - 1 * mean X l) 1). assert (B2 := A1 (mean Y l - -1 * mean X l) (-1)).
      rewrite errors_y_eq in B1, B2 by exact Hl. fold sx sy c in B1, B2. rewrite Ex, Ey in B1, B2.
      replace (mean Y l - (mean Y l - 1 * mean X l) - 1 * mean X l) with 0 in B1 by ring.
      replace (mean Y l - (mean Y l - -1 * mean X l) - -1 * mean X l) with 0 in B2 by ring.
      clearbody c. set (n := INR (length l)) in *. clearbody n.
      assert (D1 : n * c <= 0) by lra. assert (D2 : 0 <= n * c) by lra.
      assert (D : n * c = 0) by lra. apply Rmult_integral in D. lra. }
    rewrite C, Ex, Ey. destruct HA as [H0 _]. rewrite H0.
    destruct (Rltb 0 0); rewrite at_points; unfold ray; rewrite sin_0, cos_0;
      change (X (xy (mean X l) (mean Y l))) with (mean X l); change (Y (xy (mean X l) (mean Y l))) with (mean Y l);
      (split; [intros (u & _ & ->); ring|intros ->; exists (X q - mean X l); split; ring]).
Qed.
(** Points of a straight line are fitted exactly. *)
Theorem C120_collinear_partial eps at2 (l : list pt) a b : is_atan2 at2 -> (2 <= length l)%nat ->
  a <> b -> (forall p, In p l -> join a b p) ->
  let m := bestFittingLine exact (exact_geom eps at2) l in
  forall p, In p l -> distance exact m p = 0.
Proof.
  intros HA Hl Nab J m p Hp. destruct (C120_fit_partial eps at2 l HA Hl) as (M & _ & W & T & Z). fold m in M, W, T, Z.
  assert (G : points m p); [|apply M; exact G].
  assert (SQ : forall f : pt -> R, forall q, 0 <= f q * f q) by (intros; apply Rle_0_sqr).
  destruct (Rlt_dec (spread Y l) (spread X l)) as [w|nw].
  - destruct (W w) as (u & v & I & O). apply I.
    destruct (Req_dec (X b - X a) 0) as [E|N].
    { exfalso. assert (spread X l = 0) by (apply (sx_zero l Hl X (X a)); intros q Hq; destruct (J q Hq) as (t & -> & _); rewrite E; ring).
      pose proof (spread_nonneg l Y). lra. }
    set (k := (Y b - Y a) / (X b - X a)).
    assert (E0 : errors_y l (Y a - k * X a) k = 0).
    { unfold errors_y. rewrite (total_ext _ (fun _ => 0)).
      - clear. induction l as [|? l' IH]; [reflexivity|]. rewrite total_cons, IH. ring.
      - intros q Hq. destruct (J q Hq) as (t & -> & ->). unfold k. field. exact N. }
    specialize (O (Y a - k * X a) k). rewrite E0 in O.
    assert (E1 : errors_y l u v = 0).
    { apply Rle_antisym; [exact O|]. apply total_nonneg. intros q _. apply Rle_0_sqr. }
    unfold errors_y in E1. apply (total_zero _ l) with (p := p) in E1; [|intros; apply Rle_0_sqr|exact Hp].
    apply Rmult_integral in E1. lra.
  - destruct (Rlt_dec 0 (spread Y l)) as [t|nt].
    + destruct (T ltac:(lra) t) as (u & v & I & O). apply I.
      destruct (Req_dec (Y b - Y a) 0) as [E|N].
      { exfalso. assert (spread Y l = 0) by (apply (sx_zero l Hl Y (Y a)); intros q Hq; destruct (J q Hq) as (w & _ & ->); rewrite E; ring). lra. }
      set (k := (X b - X a) / (Y b - Y a)).
      assert (E0 : errors_x l (X a - k * Y a) k = 0).
      { unfold errors_x. rewrite (total_ext _ (fun _ => 0)).
        - clear. induction l as [|? l' IH]; [reflexivity|]. rewrite total_cons, IH. ring.
        - intros q Hq. destruct (J q Hq) as (w & -> & ->). unfold k. field. exact N. }
      specialize (O (X a - k * Y a) k). rewrite E0 in O.
      assert (E1 : errors_x l u v = 0).
      { apply Rle_antisym; [exact O|]. apply total_nonneg. intros q _. apply Rle_0_sqr. }
      unfold errors_x in E1. apply (total_zero _ l) with (p := p) in E1; [|intros; apply Rle_0_sqr|exact Hp].
      apply Rmult_integral in E1. lra.
    + pose proof (spread_nonneg l X). pose proof (spread_nonneg l Y).
      assert (Zy : spread Y l = 0) by lra. apply Z; [lra|exact Zy|].
      unfold spread in Zy. apply (total_zero _ l) with (p := p) in Zy; [|intros; apply Rle_0_sqr|exact Hp].
      apply Rmult_integral in Zy. lra.
Qed.

(** Three points for which the line of least squares in y is not the nearest line. *)
Definition three : list pt := [xy 0 0; xy 3 0; xy 3 3].

Theorem C120_claim_refuted : ~ C120_claim.
Proof.
  intros H. specialize (H 1 atan2_R three (xy 2 1) (PI / 4) ltac:(lra) atan2_R_ok ltac:(cbn; lia)). cbv zeta in H.
  set (L := exact_geom 1 atan2_R) in *.
  assert (F : bestFittingLine exact L three = line_at exact L (xy 2 1) (atan2_R 2 1)).
  { unfold L. rewrite fit_eq by (cbn; lia).
    assert (M1 : mean X three = 2) by (unfold mean, total, three, X; cbn; field).
    assert (M2 : mean Y three = 1) by (unfold mean, total, three, Y; cbn; field).
    rewrite M1, M2.
    assert (S1 : total (fun p => X p * X p) three / INR (length three) - 2 * 2 = 2) by (unfold total, three, X; cbn; field).
    assert (S2 : total (fun p => Y p * Y p) three / INR (length three) - 1 * 1 = 2) by (unfold total, three, Y; cbn; field).
    assert (S3 : total (fun p => X p * Y p) three / INR (length three) - 2 * 1 = 1) by (unfold total, three, X, Y; cbn; field).
    rewrite S1, S2, S3. destruct (Rltb_spec 2 2); [lra|reflexivity]. }
  rewrite F in H. clear F.
  assert (Q : forall t p, distance exact (line_at exact L (xy 2 1) t) p * distance exact (line_at exact L (xy 2 1) t) p
     = (sin t * (X p - 2) + cos t * (1 - Y p)) * (sin t * (X p - 2) + cos t * (1 - Y p))).
  { intros t p. rewrite distance_abs. symmetry. apply (Rsqr_abs (signed (line_at exact L (xy 2 1) t) p)). }
  unfold errors, three in H. rewrite !total_cons, !Q in H. unfold total in H. cbn [fold_right] in H.
  change (X (xy 0 0)) with 0 in H. change (Y (xy 0 0)) with 0 in H. change (X (xy 3 0)) with 3 in H.
  change (Y (xy 3 0)) with 0 in H. change (X (xy 3 3)) with 3 in H. change (Y (xy 3 3)) with 3 in H.
  destruct atan2_R_ok as [_ A]. destruct (A 2 1) as (C & S); [left; lra|].
  set (r := sqrt (1 * 1 + 2 * 2)) in *.
  assert (RR : r * r = 5) by (unfold r; rewrite sqrt_sqrt; lra).
  set (u := cos (atan2_R 2 1)) in *. set (v := sin (atan2_R 2 1)) in *. clearbody u v r.
  assert (V : v = 2 * u) by (assert (r <> 0) by nra; apply (Rmult_eq_reg_l r); [lra|assumption]).
  assert (UU : u * u = / 5).
  { assert (r * r * (u * u) = 1) by (replace (r * r * (u * u)) with ((r * u) * (r * u)) by ring; rewrite <- C; ring). rewrite RR in H0. lra. }
  rewrite sin_PI4, cos_PI4 in H.
  assert (W : 1 / sqrt 2 * (1 / sqrt 2) = / 2).
  { assert (sqrt 2 * sqrt 2 = 2) by (apply sqrt_sqrt; lra). assert (sqrt 2 <> 0) by nra.
    replace (1 / sqrt 2 * (1 / sqrt 2)) with (/ (sqrt 2 * sqrt 2)) by (field; assumption). rewrite H0. reflexivity. }
  set (w := 1 / sqrt 2) in *. clearbody w. subst v. nra.
Qed.
(** Four points of the line y = 2 x + 1. *)
Example C120_case eps : let m := bestFittingLine exact (exact_geom eps atan2_R) [xy 0 1; xy 1 3; xy 2 5; xy 7 15] in
  distance exact m (xy 2 5) = 0.
Proof.
  apply (C120_collinear_partial eps atan2_R _ (xy 0 1) (xy 1 3)); [apply atan2_R_ok|cbn; lia| | |].
  - intros E. apply (f_equal X) in E. unfold X, xy in E. cbn in E. lra.
  - intros p Hp. cbn [In] in Hp. destruct Hp as [<-|[<-|[<-|[<-|[]]]]];
      [exists 0|exists 1|exists 2|exists 7]; unfold X, Y, xy; cbn; split; ring.
  - cbn [In]. auto.
Qed.
Print Assumptions C120_fit_partial.
Print Assumptions C120_collinear_partial.
Print Assumptions C120_claim_refuted.

(** ** C121 *)

(** Points compare like the numbers they consist of: == is an equivalence relation, and != is
    its negation. *)
Definition C121_transitive : Prop := forall cos sin atan2 (p q r : point2 (ieee DOUBLE)),
  let L := ieee_geom DOUBLE cos sin atan2 in
  eq2 _ L p q = true -> eq2 _ L q r = true -> eq2 _ L p r = true.
Definition C121_different : Prop := forall cos sin atan2 (p q : point3 (ieee DOUBLE)),
  let L := ieee_geom DOUBLE cos sin atan2 in ne3 _ L p q = negb (eq3 _ L p q).

Definition d0 : num := dofZ 0.
(** 6e-10 and 1.2e-9 *)
Definition d6 : num := S754_finite false 5802843934150220 (-83).
Definition d12 : num := S754_finite false 5802843934150220 (-82).
Theorem C121_transitive_refuted : ~ C121_transitive.
Proof.
  intros H. specialize (H SFopp SFopp (fun x _ => x) (@P2 (ieee DOUBLE) d0 d0) (@P2 (ieee DOUBLE) d6 d0) (@P2 (ieee DOUBLE) d12 d0)).
  cbv zeta in H. assert (false = true); [|discriminate].
  transitivity (eq2 (ieee DOUBLE) (ieee_geom DOUBLE SFopp SFopp (fun x _ => x)) (@P2 (ieee DOUBLE) d0 d0) (@P2 (ieee DOUBLE) d12 d0)).
  - vm_compute. reflexivity.
  - apply H; vm_compute; reflexivity.
Qed.
(** (0,0,0) and (0,0,1): neither equal nor different. *)
Theorem C121_different_refuted : ~ C121_different.
Proof.
  intros H. specialize (H SFopp SFopp (fun x _ => x) (@P3 (ieee DOUBLE) (@P2 (ieee DOUBLE) d0 d0) d0)
    (@P3 (ieee DOUBLE) (@P2 (ieee DOUBLE) d0 d0) (dofZ 1))). vm_compute in H. discriminate H.
Qed.

(** What holds, for float and double. *)
Lemma abs_round_aux T sx sy m e l :
  SFabs (binary_round_aux (fst T) (snd T) sx m e l) = SFabs (binary_round_aux (fst T) (snd T) sy m e l).
Proof.
  unfold binary_round_aux. destruct (shr_fexp _ _ _ _ _) as [mrs e']. destruct (shr_fexp _ _ _ _ _) as [mrs' e''].
  destruct (shr_m mrs'); try reflexivity. destruct (Zle_bool _ _); reflexivity.
Qed.
Lemma abs_normalize T m e z z' :
  SFabs (binary_normalize (fst T) (snd T) m e z) = SFabs (binary_normalize (fst T) (snd T) (- m) e z').
Proof.
  destruct m as [|p|p]; [reflexivity| |]; cbn [binary_normalize Z.opp]; unfold binary_round;
    destruct (shl_align _ _ _) as [a b]; apply abs_round_aux.
Qed.
Lemma abs_sub T x y : SFabs (tsub T x y) = SFabs (tsub T y x).
Proof.
  destruct x as [s|s| |s m e], y as [s'|s'| |s' m' e']; try reflexivity;
    try (destruct s, s'; reflexivity).
  unfold tsub, SFsub. rewrite (abs_normalize T _ _ _ false). rewrite (Z.min_comm e' e).
  match goal with |- SFabs (binary_normalize _ _ ?a _ _) = SFabs (binary_normalize _ _ ?b _ _) => replace a with b by ring end.
  destruct (Z.sub _ _) as [|p|p]; reflexivity.
Qed.
Theorem C121_symmetric T x y : isEqual T x y = isEqual T y x.
Proof. unfold isEqual. rewrite abs_sub. reflexivity. Qed.
(** the tolerance as a real number: about 1e-9 and 1e-5 *)
Definition tolerance (T : ftype) : R :=
  if (fst T =? 53)%Z then 4835703278458517 * bpow radix2 (-82) else 5902957954465792 * bpow radix2 (-69).
Lemma tolerance_ok T : real_type T -> isR (epsilon T) (tolerance T).
Proof.
  intros [-> | ->].
  - exact (isR_finite false 5902957954465792 (-69) eq_refl).
  - exact (isR_finite false 4835703278458517 (-82) eq_refl).
Qed.
Lemma tolerance_format T : real_type T -> rndN T (tolerance T) = tolerance T.
Proof.
  intros [-> | ->]; unfold rndN; cbn [FLOAT DOUBLE fst snd]; apply rndT_format; try lia.
  - replace (tolerance FLOAT) with (F2R (Float radix2 10995116 (-40))).
    + apply formatT_F2R; lia.
    + unfold tolerance, F2R. simpl. lra.
  - apply formatT_F2R; lia.
Qed.
Lemma isN_abs T x a : isN T x a -> isN T (SFabs x) (Rabs a).
Proof.
  intros (b & <- & F & <-). exists (Babs b). split; [destruct b; reflexivity|].
  split; [rewrite is_finite_Babs; exact F|apply B2R_Babs].
Qed.
Lemma tolerance_small T : real_type T -> 0 < tolerance T < 1.
Proof. intros [-> | ->]; unfold tolerance; simpl; lra. Qed.
Lemma rndN_opp T a : rndN T (- a) = - rndN T a.
Proof. apply round_NE_opp. Qed.

Theorem C121_equal T x y a b : real_type T -> isN T x a -> isN T y b ->
  (isEqual T x y = true -> Rabs (a - b) < tolerance T) /\
  (Rabs (a - b) <= tolerance T / 2 -> isEqual T x y = true).
Proof.
  intros HT Hx Hy. pose proof (real_bounds T HT) as (B1 & B2 & B3). pose proof (tolerance_small T HT) as TS.
  assert (AB : forall z, Rabs (rndN T z) = rndN T (Rabs z)).
  { intros z. unfold Rabs at 2. destruct (Rcase_abs z) as [n|n].
    - rewrite rndN_opp. apply Rabs_left1. replace 0 with (rndN T 0) by (apply round_0; apply valid_rnd_N).
      apply rndN_le; [exact HT|lra].
    - apply Rabs_pos_eq. replace 0 with (rndN T 0) by (apply round_0; apply valid_rnd_N). apply rndN_le; [exact HT|lra]. }
  destruct (Rlt_dec (Rabs (rndN T (a - b))) (bpow radix2 (snd T))) as [S|S].
  - assert (D : isN T (tsub T x y) (rndN T (a - b))).
    { destruct T as [p e]. apply isT_sub; try assumption; cbn in *; lia. }
    apply isN_abs in D. apply isN_widen in D; [|exact HT].
    assert (E : isEqual T x y = Rlt_bool (Rabs (rndN T (a - b))) (tolerance T)).
    { apply (isR_lt _ _ _ _ D (tolerance_ok T HT)). }
    rewrite E, AB. split.
    + intros H. destruct (Rlt_bool_spec (rndN T (Rabs (a - b))) (tolerance T)) as [K|K]; [|discriminate].
      destruct (Rlt_dec (Rabs (a - b)) (tolerance T)) as [|N]; [assumption|].
      assert (tolerance T <= rndN T (Rabs (a - b))); [|lra].
      rewrite <- (tolerance_format T HT) at 1. apply rndN_le; [exact HT|lra].
    + intros H. destruct (Rlt_bool_spec (rndN T (Rabs (a - b))) (tolerance T)) as [K|K]; [reflexivity|]. exfalso.
      assert (K' : rndN T (Rabs (a - b)) <= tolerance T / 2); [|lra].
      replace (tolerance T / 2) with (rndN T (tolerance T / 2)); [apply rndN_le; assumption|].
      clear -HT. destruct HT as [-> | ->]; unfold rndN; cbn [FLOAT DOUBLE fst snd]; apply rndT_format; try lia.
      * replace (tolerance FLOAT / 2) with (F2R (Float radix2 10995116 (-41))).
        { apply formatT_F2R; lia. } unfold tolerance, F2R. simpl. lra.
      * replace (tolerance DOUBLE / 2) with (F2R (Float radix2 4835703278458517 (-83))).
        { apply formatT_F2R; lia. } unfold tolerance, F2R. simpl. lra.
  - split.
    + intros H. exfalso. destruct Hx as (bx & <- & Fx & <-), Hy as (by_ & <- & Fy & <-).
      destruct T as [p e]. cbn [fst snd] in *.
      assert (Q1 : (2 <= p)%Z) by lia. assert (Q2 : (p < e)%Z) by lia. 
      unfold isEqual in H. rewrite (sub_eqT p e Q1 Q2) in H.
      pose proof (Bminus_correct p e (Pp p Q1) (Pe p e Q2) mode_NE bx by_ Fx Fy) as C.
      rewrite Rlt_bool_false in C by (apply Rnot_lt_le; exact S).
      destruct C as (C & _). rewrite C in H. unfold epsilon in H. cbn [fst] in H. destruct (p =? 53)%Z; discriminate H.
    + intros H. exfalso. apply S. rewrite AB. apply Rle_lt_trans with (rndN T 1).
      * apply rndN_le; [exact HT|lra].
      * replace (rndN T 1) with 1.
        -- replace 1 with (bpow radix2 0) by reflexivity. apply bpow_lt. lia.
        -- symmetry. apply rndT_format; try lia. apply (formatT_IZR (fst T) (snd T)); try lia.
Qed.

(** Numbers with integer values are equal for the library exactly when they are equal. *)
Theorem C121_integers T x y a b : real_type T -> isN T x (IZR a) -> isN T y (IZR b) ->
  (isEqual T x y = true <-> a = b).
Proof.
  intros HT Hx Hy. destruct (C121_equal T x y _ _ HT Hx Hy) as (H1 & H2). pose proof (tolerance_small T HT).
  split.
  - intros E. apply H1 in E. rewrite <- minus_IZR, <- abs_IZR in E.
    assert (IZR (Z.abs (a - b)) < 1) by lra. apply lt_IZR in H0. lia.
  - intros <-. apply H2. rewrite Rminus_diag_eq, Rabs_R0 by reflexivity. lra.
Qed.
(** Points of the plane: != holds exactly when a coordinate differs, so it is the opposite of ==. *)
Theorem C121_different_2d (A : arith) (G : geom_lib A) (p q : point2 A) :
  ne2 A G p q = true <-> gequal G (px2 p) (px2 q) = false \/ gequal G (py2 p) (py2 q) = false.
Proof.
  unfold ne2, eq2. destruct (gequal G (px2 p) (px2 q)), (gequal G (py2 p) (py2 q)); cbn; split; intuition discriminate.
Qed.
Example C121_case : isEqual DOUBLE (dofZ 3) (dofZ 3) = true /\ isEqual DOUBLE (dofZ 3) (dofZ 4) = false /\
  isEqual FLOAT (tofZ FLOAT 3) (tofZ FLOAT 3) = true.
Proof. vm_compute. auto. Qed.
Print Assumptions C121_transitive_refuted.
Print Assumptions C121_different_refuted.
Print Assumptions C121_symmetric.
Print Assumptions C121_equal.
Print Assumptions C121_integers.
Print Assumptions C121_different_2d.

(** ** C122 *)

(** line + offset and line += offset both give the line translated by the offset. *)
Definition moves (L : geom_lib exact) (l : line exact) (S : pt -> Prop) : Prop := forall v,
  measures (line_plus exact L l v) (translated S v) /\ measures (line_add exact l v) (translated S v).
Theorem C122_through eps at2 a b : 0 < eps -> is_atan2 at2 ->
  (eps <= Rabs (X a - X b) \/ eps <= Rabs (Y a - Y b)) ->
  let L := exact_geom eps at2 in moves L (line_through exact L a b) (join a b).
Proof.
  intros P HA N L v.
  assert (E : eq2 exact L a b = false).
  { unfold eq2. cbn. unfold exact_equal. fold (X a) (X b) (Y a) (Y b).
    destruct (Rltb_spec (Rabs (X a - X b)) eps); [|reflexivity].
    destruct (Rltb_spec (Rabs (Y a - Y b)) eps); [lra|reflexivity]. }
  pose proof (through_unit eps at2 P a b E) as U. fold L in U.
  assert (M : measures (line_add exact (line_through exact L a b) v) (translated (join a b) v)).
  { eapply measures_ext; [|apply unit_measures; exact U]. intros q. rewrite add_points. unfold translated.
    apply through_points; assumption. }
  split; [|exact M]. unfold L at 1. rewrite plus_eq by assumption. exact M.
Qed.
Theorem C122_at eps at2 a t : is_atan2 at2 -> let L := exact_geom eps at2 in moves L (line_at exact L a t) (ray a t).
Proof.
  intros HA L v. pose proof (at_unit eps at2 a t) as U. fold L in U.
  assert (M : measures (line_add exact (line_at exact L a t) v) (translated (ray a t) v)).
  { eapply measures_ext; [|apply unit_measures; exact U]. intros q. rewrite add_points. reflexivity. }
  split; [|exact M]. unfold L at 1. rewrite plus_eq by assumption. exact M.
Qed.
(** The line through (1,1) and (4,5) moved by any offset. *)
Example C122_case : let L := exact_geom (/ 1000000000) atan2_R in
  moves L (line_through exact L (xy 1 1) (xy 4 5)) (join (xy 1 1) (xy 4 5)).
Proof.
  apply C122_through; [lra|exact atan2_R_ok|]. left. unfold X, xy. cbn. rewrite Rabs_left by lra. lra.
Qed.
Print Assumptions C122_through.
Print Assumptions C122_at.

(** ** C123 *)

(** relative error of one operation *)
Lemma rel x : bpow radix2 (-1000) <= Rabs x -> Rabs (rnd x - x) <= bpow radix2 (-53) * Rabs x.
Proof.
  intros H. pose proof (relative_error_N_FLT radix2 (-1074) 53 ltac:(lia) (fun z => negb (Z.even z)) x) as E.
  assert (K : bpow radix2 (-1074 + 53 - 1) <= Rabs x).
  { eapply Rle_trans; [apply bpow_le|exact H]. lia. }
  specialize (E K). replace (/ 2 * bpow radix2 (- (53) + 1)) with (bpow radix2 (-53)) in E; [exact E|].
  replace (/ 2) with (bpow radix2 (-1)) by reflexivity. rewrite <- bpow_plus. reflexivity.
Qed.

(** two factors close to 1 *)
Lemma rel_trans u x y z a b : 0 <= a <= / 4 -> 0 <= b ->
  Rabs (y - x) <= a * Rabs x -> Rabs (z - u * y) <= b * Rabs (u * y) ->
  Rabs (z - u * x) <= (a + 5 / 4 * b) * Rabs (u * x).
Proof.
  intros Ha Hb H1 H2. rewrite !Rabs_mult in *.
  replace (z - u * x) with ((z - u * y) + u * (y - x)) by ring.
  eapply Rle_trans; [apply Rabs_triang|]. rewrite Rabs_mult.
  assert (Y0 : Rabs y <= 5 / 4 * Rabs x).
  { replace y with (x + (y - x)) by ring. eapply Rle_trans; [apply Rabs_triang|].
    pose proof (Rabs_pos x). assert (a * Rabs x <= / 4 * Rabs x) by (apply Rmult_le_compat_r; lra). lra. }
  pose proof (Rabs_pos u). pose proof (Rabs_pos x). pose proof (Rabs_pos y). pose proof (Rabs_pos (y - x)).
  assert (b * (Rabs u * Rabs y) <= b * (Rabs u * (5 / 4 * Rabs x))).
  { apply Rmult_le_compat_l; [lra|]. apply Rmult_le_compat_l; lra. }
  assert (Rabs u * Rabs (y - x) <= Rabs u * (a * Rabs x)) by (apply Rmult_le_compat_l; lra).
  lra.
Qed.
(** zero, or neither tiny nor huge *)
Definition mid (e : Z) (x : R) : Prop := x = 0 \/ bpow radix2 (- e) <= Rabs x <= bpow radix2 e.
Definition half_ulp : R := bpow radix2 (-53).
Lemma rel_mid x : mid 1000 x -> Rabs (rnd x - x) <= half_ulp * Rabs x /\ Rabs (rnd x) < big.
Proof.
  intros [-> | (H1 & H2)].
  - unfold rnd. rewrite round_0 by apply valid_rnd_N. rewrite Rminus_0_r, Rabs_R0, Rmult_0_r. split; [lra|]. apply bpow_gt_0.
  - split; [apply rel; exact H1|]. apply (bound_big _ 1000); [lia|]. apply rnd_bound; [lia|exact H2].
Qed.
Lemma mul_rel x y a b : isR x a -> isR y b -> mid 1000 (b * a) ->
  exists c, isR (dmul x y) c /\ Rabs (c - b * a) <= half_ulp * Rabs (b * a).
Proof.
  intros Hx Hy M. apply rel_mid in M. rewrite (Rmult_comm b a) in *. exists (rnd (a * b)). split; [|apply M].
  apply isR_mul; [assumption|assumption|apply M].
Qed.
Lemma div_rel x y a b : isR x a -> isR y b -> b <> 0 -> mid 1000 (/ b * a) ->
  exists c, isR (ddiv x y) c /\ Rabs (c - / b * a) <= half_ulp * Rabs (/ b * a).
Proof.
  intros Hx Hy N M. apply rel_mid in M. rewrite (Rmult_comm (/ b) a) in *. exists (rnd (a / b)). split; [|apply M].
  apply isR_div; [assumption|assumption|assumption|apply M].
Qed.
(** Multiplying by a factor between 2^-k and 2^k, with a small relative error. *)
Lemma mid_step e k u x y : (0 <= k)%Z -> mid e x -> bpow radix2 (- k) <= Rabs u <= bpow radix2 k ->
  Rabs (y - x) <= / 4 * Rabs x -> mid (e + k + 1) (u * y).
Proof.
  intros Hk [-> | (H1 & H2)] (U1 & U2) D.
  - left. rewrite Rabs_R0, Rmult_0_r, Rminus_0_r in D. pose proof (Rabs_pos y).
    assert (y = 0). { destruct (Req_dec y 0); [assumption|]. pose proof (Rabs_pos_lt y H0). lra. } subst y. ring.
  - right. rewrite Rabs_mult.
    assert (Y1 : 3 / 4 * Rabs x <= Rabs y <= 5 / 4 * Rabs x).
    { split.
      - pose proof (Rabs_triang y (x - y)) as T. replace (y + (x - y)) with x in T by ring.
        rewrite (Rabs_minus_sym x y) in T. lra.
      - pose proof (Rabs_triang x (y - x)) as T. replace (x + (y - x)) with y in T by ring. lra. }
    replace (e + k + 1)%Z with (k + e + 1)%Z by ring.
    pose proof (Rabs_pos x). pose proof (Rabs_pos u).
    pose proof (bpow_gt_0 radix2 (- k)). pose proof (bpow_gt_0 radix2 (- e)).
    split.
    + replace (- (k + e + 1))%Z with ((- k) + ((- e) + (-1)))%Z by ring. rewrite !bpow_plus.
      apply Rmult_le_compat; try lra; [apply Rmult_le_pos; [lra|simpl; lra]|]. simpl (bpow radix2 (-1)). lra.
    + replace (k + e + 1)%Z with (k + (e + 1))%Z by ring. rewrite !bpow_plus.
      apply Rmult_le_compat; try lra. simpl (bpow radix2 1). lra.
Qed.
Lemma half_ulp_small : 0 < half_ulp < / 1000.
Proof.
  unfold half_ulp. split; [apply bpow_gt_0|]. apply Rlt_trans with (bpow radix2 (-10)); [apply bpow_lt; lia|simpl; lra].
Qed.
Lemma b180 : bpow radix2 (-8) <= Rabs 180 <= bpow radix2 8 /\ bpow radix2 (-8) <= Rabs (/ 180) <= bpow radix2 8.
Proof. rewrite !Rabs_pos_eq by lra. simpl. lra. Qed.
Lemma bpi r : 3 <= r <= 4 -> bpow radix2 (-2) <= Rabs r <= bpow radix2 2 /\ bpow radix2 (-2) <= Rabs (/ r) <= bpow radix2 2.
Proof.
  intros H. assert (0 < / r) by (apply Rinv_0_lt_compat; lra). rewrite !Rabs_pos_eq by lra. simpl.
  assert (r * / r = 1) by (apply Rinv_r; lra). split; [lra|]. split; nra.
Qed.
Lemma mid_le e f x : (e <= f)%Z -> mid e x -> mid f x.
Proof.
  intros H [E|(H1 & H2)]; [left; exact E|right].
  pose proof (bpow_le radix2 (- f) (- e) ltac:(lia)). pose proof (bpow_le radix2 e f H). lra.
Qed.

(** [q] is the double pi = acos( -1 ).  Both conversions are accurate to five units of 2^-53
    against the number PI, and there and back is the identity to that precision. *)
Definition close (r x : R) : Prop := Rabs (r - x) <= 5 * half_ulp * Rabs x.
Definition pi_double (q : num) : Prop := exists p, isR q p /\ Rabs (p - PI) <= bpow radix2 (-51).

Lemma pi_range p : Rabs (p - PI) <= bpow radix2 (-51) -> 3 <= p <= 4 /\ Rabs (p - PI) <= 2 * half_ulp * Rabs PI.
Proof.
  intros H. pose proof PI_4 as P4. pose proof PI_RGT_0 as P0.
  assert (P3 : 3 + / 100 <= PI).
  { pose proof (PI_ineq 3) as K. unfold tg_alt, PI_tg in K. simpl in K. lra. }
  assert (P5 : PI <= 3 + / 2).
  { pose proof (PI_ineq 3) as K. unfold tg_alt, PI_tg in K. simpl in K. lra. }
  assert (B : bpow radix2 (-51) <= / 1000) by (apply Rle_trans with (bpow radix2 (-10)); [apply bpow_le; lia|simpl; lra]).
  split.
  - apply Rabs_le_inv in H. lra.
  - rewrite (Rabs_pos_eq PI) by lra. eapply Rle_trans; [exact H|].
    replace (bpow radix2 (-51)) with (4 * half_ulp) by (unfold half_ulp; replace 4 with (bpow radix2 2) by reflexivity; rewrite <- bpow_plus; reflexivity).
    pose proof half_ulp_small. nra.
Qed.

Lemma chain_start x : Rabs (x - x) <= 0 * Rabs x.
Proof. rewrite Rminus_diag_eq, Rabs_R0 by reflexivity. lra. Qed.
Lemma quarter a x y : a <= / 4 -> Rabs (y - x) <= a * Rabs x -> Rabs (y - x) <= / 4 * Rabs x.
Proof.
  intros H H1. eapply Rle_trans; [exact H1|]. apply Rmult_le_compat_r; [apply Rabs_pos|exact H].
Qed.

Theorem C123_to_radians q d x : pi_double q -> isR d x -> mid 900 x ->
  exists r, isR (toRadians q d) r /\ close r (x * PI / 180).
Proof.
  intros (p & Hq & Hp) Hd M. destruct (pi_range p Hp) as (R1 & R2). pose proof half_ulp_small as U.
  destruct (bpi p R1) as (B1 & B2). destruct b180 as (B3 & B4).
  assert (M1 : mid 903 (p * x)) by (apply (mid_step 900 2 p x x); [lia|exact M|exact B1|rewrite Rminus_diag_eq, Rabs_R0 by reflexivity; pose proof (Rabs_pos x); lra]).
  destruct (mul_rel d q x p Hd Hq (mid_le 903 1000 _ ltac:(lia) M1)) as (r1 & I1 & E1).
  assert (M2 : mid 912 (/ 180 * r1)) by (apply (mid_step 903 8 (/ 180) (p * x) r1); [lia|exact M1|exact B4|apply (quarter half_ulp); [lra|exact E1]]).
  destruct (div_rel (dmul d q) (dofZ 180) r1 180 I1 (isR_ofZ 180 ltac:(lia)) ltac:(lra) (mid_le 912 1000 _ ltac:(lia) M2)) as (r2 & I2 & E2).
  exists r2. split; [exact I2|].
  (* from PI to pi, times x, divided by 180 *)
  assert (C1 : Rabs (r1 - x * PI) <= (2 * half_ulp + 5 / 4 * half_ulp) * Rabs (x * PI)).
  { apply (rel_trans x PI p r1); [lra|lra|exact R2|]. rewrite (Rmult_comm x p). exact E1. }
  assert (C2 : Rabs (r2 - / 180 * (x * PI)) <= (2 * half_ulp + 5 / 4 * half_ulp + 5 / 4 * half_ulp) * Rabs (/ 180 * (x * PI))).
  { apply (rel_trans (/ 180) (x * PI) r1 r2); [lra|lra|exact C1|exact E2]. }
  unfold close. replace (x * PI / 180) with (/ 180 * (x * PI)) by (unfold Rdiv; ring).
  eapply Rle_trans; [exact C2|]. apply Rmult_le_compat_r; [apply Rabs_pos|lra].
Qed.
Theorem C123_to_degrees q d x : pi_double q -> isR d x -> mid 900 x ->
  exists r, isR (toDegrees q d) r /\ close r (x * 180 / PI).
Proof.
  intros (p & Hq & Hp) Hd M. destruct (pi_range p Hp) as (R1 & R2). pose proof half_ulp_small as U. pose proof PI_RGT_0 as P0.
  destruct (bpi p R1) as (B1 & B2). destruct b180 as (B3 & B4).
  assert (M1 : mid 909 (180 * x)) by (apply (mid_step 900 8 180 x x); [lia|exact M|exact B3|rewrite Rminus_diag_eq, Rabs_R0 by reflexivity; pose proof (Rabs_pos x); lra]).
  destruct (mul_rel d (dofZ 180) x 180 Hd (isR_ofZ 180 ltac:(lia)) (mid_le 909 1000 _ ltac:(lia) M1)) as (r1 & I1 & E1).
  assert (M2 : mid 912 (/ p * r1)) by (apply (mid_step 909 2 (/ p) (180 * x) r1); [lia|exact M1|exact B2|apply (quarter half_ulp); [lra|exact E1]]).
  destruct (div_rel (dmul d (dofZ 180)) q r1 p I1 Hq ltac:(lra) (mid_le 912 1000 _ ltac:(lia) M2)) as (r2 & I2 & E2).
  exists r2. split; [exact I2|].
  assert (C0 : Rabs (/ p - / PI) <= (2 * half_ulp + / 4 * half_ulp) * Rabs (/ PI)).
  { replace (/ p - / PI) with (- ((p - PI) * / p * / PI)) by (field; lra). rewrite Rabs_Ropp, !Rabs_mult.
    apply Rmult_le_compat_r; [apply Rabs_pos|]. rewrite (Rabs_pos_eq (/ p)) by (left; apply Rinv_0_lt_compat; lra).
    rewrite (Rabs_pos_eq PI) in R2 by lra.
    assert (K : PI <= p * (1 + / 1000)).
    { apply Rabs_le_inv in Hp. assert (bpow radix2 (-51) <= / 1000) by (apply Rle_trans with (bpow radix2 (-10)); [apply bpow_le; lia|simpl; lra]). lra. }
    apply (Rmult_le_reg_r p); [lra|]. rewrite Rmult_assoc, Rinv_l, Rmult_1_r by lra.
    eapply Rle_trans; [exact R2|]. nra. }
  assert (C1 : Rabs (/ p * (180 * x) - (180 * x) * / PI) <= (2 * half_ulp + / 4 * half_ulp + 5 / 4 * 0) * Rabs ((180 * x) * / PI)).
  { apply (rel_trans (180 * x) (/ PI) (/ p)); [lra|lra|exact C0|].
    rewrite (Rmult_comm (/ p)), Rminus_diag_eq, Rabs_R0 by reflexivity. lra. }
  assert (C2 : Rabs (r1 * / p - / p * (180 * x)) <= (half_ulp + 5 / 4 * 0) * Rabs (/ p * (180 * x))).
  { apply (rel_trans (/ p) (180 * x) r1); [lra|lra|exact E1|]. rewrite (Rmult_comm r1), Rminus_diag_eq, Rabs_R0 by reflexivity. lra. }
  assert (C3 : Rabs (r1 * / p - 1 * ((180 * x) * / PI)) <= (2 * half_ulp + / 4 * half_ulp + 5 / 4 * 0 + 5 / 4 * (half_ulp + 5 / 4 * 0)) * Rabs (1 * ((180 * x) * / PI))).
  { apply (rel_trans 1 ((180 * x) * / PI) (/ p * (180 * x))); [lra|lra|exact C1|rewrite Rmult_1_l; exact C2]. }
  rewrite Rmult_1_l in C3.
  assert (C4 : Rabs (r2 - 1 * ((180 * x) * / PI)) <= (2 * half_ulp + / 4 * half_ulp + 5 / 4 * 0 + 5 / 4 * (half_ulp + 5 / 4 * 0) + 5 / 4 * half_ulp) * Rabs (1 * ((180 * x) * / PI))).
  { apply (rel_trans 1 ((180 * x) * / PI) (r1 * / p)); [lra|lra|exact C3|rewrite Rmult_1_l, (Rmult_comm r1); exact E2]. }
  unfold close. replace (x * 180 / PI) with (1 * (180 * x * / PI)) by (unfold Rdiv; ring).
  eapply Rle_trans; [exact C4|]. apply Rmult_le_compat_r; [apply Rabs_pos|lra].
Qed.
Theorem C123_round_trip q d x : pi_double q -> isR d x -> mid 900 x ->
  exists r, isR (toDegrees q (toRadians q d)) r /\ close r x.
Proof.
  intros (p & Hq & Hp) Hd M. destruct (pi_range p Hp) as (R1 & R2). pose proof half_ulp_small as U.
  destruct (bpi p R1) as (B1 & B2). destruct b180 as (B3 & B4).
  assert (M1 : mid 903 (p * x)) by (apply (mid_step 900 2 p x x); [lia|exact M|exact B1|rewrite Rminus_diag_eq, Rabs_R0 by reflexivity; pose proof (Rabs_pos x); lra]).
  destruct (mul_rel d q x p Hd Hq (mid_le 903 1000 _ ltac:(lia) M1)) as (r1 & I1 & E1).
  assert (M2 : mid 912 (/ 180 * r1)) by (apply (mid_step 903 8 (/ 180) (p * x) r1); [lia|exact M1|exact B4|apply (quarter half_ulp); [lra|exact E1]]).
  destruct (div_rel (dmul d q) (dofZ 180) r1 180 I1 (isR_ofZ 180 ltac:(lia)) ltac:(lra) (mid_le 912 1000 _ ltac:(lia) M2)) as (r2 & I2 & E2).
  assert (M3 : mid 921 (180 * r2)) by (apply (mid_step 912 8 180 (/ 180 * r1) r2); [lia|exact M2|exact B3|apply (quarter half_ulp); [lra|exact E2]]).
  destruct (mul_rel _ (dofZ 180) r2 180 I2 (isR_ofZ 180 ltac:(lia)) (mid_le 921 1000 _ ltac:(lia) M3)) as (r3 & I3 & E3).
  assert (M4 : mid 924 (/ p * r3)) by (apply (mid_step 921 2 (/ p) (180 * r2) r3); [lia|exact M3|exact B2|apply (quarter half_ulp); [lra|exact E3]]).
  destruct (div_rel _ q r3 p I3 Hq ltac:(lra) (mid_le 924 1000 _ ltac:(lia) M4)) as (r4 & I4 & E4).
  exists r4. split; [exact I4|].
  assert (C2 : Rabs (r2 - / 180 * (p * x)) <= (half_ulp + 5 / 4 * half_ulp) * Rabs (/ 180 * (p * x))).
  { apply (rel_trans (/ 180) (p * x) r1 r2); [lra|lra|exact E1|exact E2]. }
  assert (C3 : Rabs (r3 - 180 * (/ 180 * (p * x))) <= (half_ulp + 5 / 4 * half_ulp + 5 / 4 * half_ulp) * Rabs (180 * (/ 180 * (p * x)))).
  { apply (rel_trans 180 (/ 180 * (p * x)) r2 r3); [lra|lra|exact C2|exact E3]. }
  assert (C4 : Rabs (r4 - / p * (180 * (/ 180 * (p * x)))) <= (half_ulp + 5 / 4 * half_ulp + 5 / 4 * half_ulp + 5 / 4 * half_ulp) * Rabs (/ p * (180 * (/ 180 * (p * x))))).
  { apply (rel_trans (/ p) (180 * (/ 180 * (p * x))) r3 r4); [lra|lra|exact C3|exact E4]. }
  replace (/ p * (180 * (/ 180 * (p * x)))) with x in C4 by (field; lra).
  unfold close. eapply Rle_trans; [exact C4|]. apply Rmult_le_compat_r; [apply Rabs_pos|lra].
Qed.
(** The double nearest to PI is such a [q]; 90 degrees. *)
Example C123_case : (exists q, pi_double q) /\ isR (dofZ 90) 90 /\ mid 900 90.
Proof.
  split.
  - pose proof PI_4. pose proof PI_RGT_0.
    assert (B : Rabs PI <= bpow radix2 2) by (rewrite Rabs_pos_eq by lra; simpl; lra).
    assert (F : generic_format radix2 (SpecFloat.fexp 53 1024) (rnd PI)).
    { apply generic_format_round; [apply fexp_valid|apply valid_rnd_N]. }
    set (f := Float radix2 (Ztrunc (scaled_mantissa radix2 (SpecFloat.fexp 53 1024) (rnd PI))) (cexp radix2 (SpecFloat.fexp 53 1024) (rnd PI))).
    assert (E : rnd PI = F2R f) by exact F.
    exists (SpecFloat.binary_normalize 53 1024 (Fnum f) (Fexp f) false), (rnd PI). split.
    + assert (K : rndT 53 1024 (F2R (Float radix2 (Fnum f) (Fexp f))) = rnd PI).
      { transitivity (rnd (rnd PI)); [rewrite E at 1; destruct f; reflexivity|apply rnd_format; exact F]. }
      rewrite <- K. apply isT_normalize; try lia. rewrite K. apply (bound_big _ 2); [lia|]. apply rnd_bound; [lia|exact B].
    + apply (rnd_error PI 2); [lia|exact B].
  - split; [apply isR_ofZ; lia|]. right. rewrite Rabs_pos_eq by lra. split.
    + apply Rle_trans with (bpow radix2 0); [apply bpow_le; lia|simpl; lra].
    + apply Rle_trans with (bpow radix2 7); [simpl; lra|apply bpow_le; lia].
Qed.
Print Assumptions C123_to_radians.
Print Assumptions C123_to_degrees.
Print Assumptions C123_round_trip.
