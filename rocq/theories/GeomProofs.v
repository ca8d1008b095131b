(** Lines in exact arithmetic. *)
From Coq Require Import Reals List Lra Lia ZArith Bool Psatz.
From Verif Require Import Base Arith Geom GeomSpec.
Open Scope R_scope.

Lemma pt_eq (p q : pt) : X p = X q -> Y p = Y q -> p = q.
Proof. destruct p, q. unfold X, Y. cbn. intros -> ->. reflexivity. Qed.

Lemma Rltb_spec a b : reflect (a < b) (Rltb a b).
Proof. unfold Rltb. destruct (Rlt_dec a b); constructor; auto. Qed.

(** The points of a line object. *)
Definition points (l : line exact) (q : pt) : Prop :=
  exists t, X q = X (lpos l) + t * X (ldir l) /\ Y q = Y (lpos l) + t * Y (ldir l).
Definition unit_dir (l : line exact) : Prop := X (ldir l) * X (ldir l) + Y (ldir l) * Y (ldir l) = 1.

(** the signed distance *)
Definition signed (l : line exact) (p : pt) : R :=
  Y (ldir l) * (X p - X (lpos l)) + X (ldir l) * (Y (lpos l) - Y p).
Definition along (l : line exact) (p : pt) : R :=
  X (ldir l) * (X p - X (lpos l)) + Y (ldir l) * (Y p - Y (lpos l)).

Lemma distance_abs l p : distance exact l p = Rabs (signed l p).
Proof.
  unfold distance, signed, X, Y. cbn.
  destruct (Rltb_spec (py2 (ldir l) * (px2 p - px2 (lpos l)) + px2 (ldir l) * (py2 (lpos l) - py2 p)) 0).
  - symmetry. apply Rabs_left. assumption.
  - symmetry. apply Rabs_right. lra.
Qed.
Lemma projection_x l p : X (projection exact l p) = X (lpos l) + X (ldir l) * along l p.
Proof. reflexivity. Qed.
Lemma projection_y l p : Y (projection exact l p) = Y (lpos l) + Y (ldir l) * along l p.
Proof. reflexivity. Qed.
Lemma opposite_x l p : X (opposite exact l p) = 2 * X (projection exact l p) - X p.
Proof. reflexivity. Qed.
Lemma opposite_y l p : Y (opposite exact l p) = 2 * Y (projection exact l p) - Y p.
Proof. reflexivity. Qed.

Lemma abs_le_sqrt a b : a * a <= b -> Rabs a <= sqrt b.
Proof. intros H. rewrite <- sqrt_Rsqr_abs. apply sqrt_le_1_alt. exact H. Qed.

Lemma unit_measures l : unit_dir l -> measures l (points l).
Proof.
  unfold unit_dir. intros U. split.
  { exists 0. split; ring. }
  intros p. set (dx := X (ldir l)) in *. set (dy := Y (ldir l)) in *.
  set (ax := X (lpos l)). set (ay := Y (lpos l)).
  assert (D : distance exact l p = Rabs (dy * (X p - ax) + dx * (ay - Y p))) by apply distance_abs.
  repeat split.
  - exists (along l p). rewrite projection_x, projection_y. split; ring.
  - rewrite D. unfold dist. rewrite projection_x, projection_y. unfold along. fold dx dy ax ay.
    rewrite <- sqrt_Rsqr_abs. f_equal. unfold Rsqr.
    replace (X p - (ax + dx * (dx * (X p - ax) + dy * (Y p - ay))))
      with ((dx * dx + dy * dy) * (X p - ax) - dx * (dx * (X p - ax) + dy * (Y p - ay)))
      by (rewrite U; ring).
    replace (Y p - (ay + dy * (dx * (X p - ax) + dy * (Y p - ay))))
      with ((dx * dx + dy * dy) * (Y p - ay) - dy * (dx * (X p - ax) + dy * (Y p - ay)))
      by (rewrite U; ring).
    transitivity ((dx * dx + dy * dy) * ((dy * (X p - ax) + dx * (ay - Y p)) * (dy * (X p - ax) + dx * (ay - Y p)))); [ring|].
    rewrite U. ring.
  - intros q (t & Ex & Ey). rewrite D. fold ax ay dx dy in Ex, Ey. unfold dist. apply abs_le_sqrt. rewrite Ex, Ey.
    set (u := X p - ax). set (v := Y p - ay).
    replace (X p - (ax + t * dx)) with (u - t * dx) by (unfold u; ring).
    replace (Y p - (ay + t * dy)) with (v - t * dy) by (unfold v; ring).
    replace (ay - Y p) with (- v) by (unfold v; ring).
    assert (Q : (u - t * dx) * (u - t * dx) + (v - t * dy) * (v - t * dy)
      = (dy * u + dx * - v) * (dy * u + dx * - v) + (dx * u + dy * v - t) * (dx * u + dy * v - t)
        + (1 - (dx * dx + dy * dy)) * (u * u + v * v - t * t)) by ring.
    rewrite Q, U. pose proof (Rle_0_sqr (dx * u + dy * v - t)) as H. unfold Rsqr in H. lra.
  - intros (t & Ex & Ey). rewrite D. fold ax ay dx dy in Ex, Ey. rewrite Ex, Ey.
    replace (dy * (ax + t * dx - ax) + dx * (ay - (ay + t * dy))) with 0 by ring. apply Rabs_R0.
  - intros E. rewrite D in E.
    assert (Z : dy * (X p - ax) + dx * (ay - Y p) = 0).
    { destruct (Req_dec (dy * (X p - ax) + dx * (ay - Y p)) 0) as [H|H]; [exact H|].
      apply Rabs_pos_lt in H. lra. }
    exists (along l p). unfold along. fold dx dy ax ay. split.
    + transitivity (ax + ((dx * dx + dy * dy) * (X p - ax) - dy * (dy * (X p - ax) + dx * (ay - Y p)))); [rewrite U, Z; ring|ring].
    + transitivity (ay + ((dx * dx + dy * dy) * (Y p - ay) + dx * (dy * (X p - ax) + dx * (ay - Y p)))); [rewrite U, Z; ring|ring].
  - rewrite opposite_x. field.
  - rewrite opposite_y. field.
  - apply pt_eq; rewrite ?opposite_x, ?opposite_y, ?projection_x, ?projection_y; unfold along;
      rewrite ?opposite_x, ?opposite_y, ?projection_x, ?projection_y; unfold along; fold dx dy ax ay;
      set (s := dx * (X p - ax) + dy * (Y p - ay)).
    + replace (dx * (2 * (ax + dx * s) - X p - ax) + dy * (2 * (ay + dy * s) - Y p - ay))
        with (2 * s * (dx * dx + dy * dy) - s) by (unfold s; ring). rewrite U. ring.
    + replace (dx * (2 * (ax + dx * s) - X p - ax) + dy * (2 * (ay + dy * s) - Y p - ay))
        with (2 * s * (dx * dx + dy * dy) - s) by (unfold s; ring). rewrite U. ring.
Qed.

(** ** Constructors *)
Section CONS.
Variable eps : R.
Variable at2 : R -> R -> R.
Hypothesis eps_pos : 0 < eps.
Notation L := (exact_geom eps at2).

Lemma at_unit a t : unit_dir (line_at exact L a t).
Proof.
  unfold unit_dir, line_at, X, Y. cbn. pose proof (sin2_cos2 t) as H. unfold Rsqr in H. lra.
Qed.
Lemma at_points a t q : points (line_at exact L a t) q <-> ray a t q.
Proof. reflexivity. Qed.

Lemma not_near_pos (a b : pt) : eq2 exact L a b = false ->
  0 < (X b - X a) * (X b - X a) + (Y b - Y a) * (Y b - Y a).
Proof.
  intros N.
  pose proof (Rle_0_sqr (X b - X a)) as Hx. pose proof (Rle_0_sqr (Y b - Y a)) as Hy. unfold Rsqr in *.
  destruct (Req_dec (X b - X a) 0) as [Ex|Nx].
  - destruct (Req_dec (Y b - Y a) 0) as [Ey|Ny].
    + exfalso. unfold eq2 in N. cbn in N. unfold exact_equal in N.
      fold (X a) (X b) (Y a) (Y b) in N.
      replace (X a - X b) with 0 in N by lra. replace (Y a - Y b) with 0 in N by lra. rewrite Rabs_R0 in N.
      destruct (Rltb_spec 0 eps); [discriminate|lra].
    + assert (0 < (Y b - Y a) * (Y b - Y a)) by nra. lra.
  - assert (0 < (X b - X a) * (X b - X a)) by nra. lra.
Qed.

Lemma through_dir a b : eq2 exact L a b = false ->
  let n := sqrt ((X b - X a) * (X b - X a) + (Y b - Y a) * (Y b - Y a)) in
  0 < n /\ X (ldir (line_through exact L a b)) = (X b - X a) / n /\ Y (ldir (line_through exact L a b)) = (Y b - Y a) / n.
Proof.
  intros N n. split; [apply sqrt_lt_R0, not_near_pos, N|].
  unfold line_through. rewrite N. split; reflexivity.
Qed.
Lemma through_unit a b : eq2 exact L a b = false -> unit_dir (line_through exact L a b).
Proof.
  intros N. destruct (through_dir a b N) as (P & Ex & Ey). cbv zeta in *.
  unfold unit_dir. rewrite Ex, Ey.
  set (n := sqrt _) in *.
  assert (S : n * n = (X b - X a) * (X b - X a) + (Y b - Y a) * (Y b - Y a)).
  { apply sqrt_sqrt. left. apply not_near_pos, N. }
  transitivity (((X b - X a) * (X b - X a) + (Y b - Y a) * (Y b - Y a)) / (n * n)); [field; lra|].
  rewrite <- S. field. lra.
Qed.
Lemma through_points a b q : eq2 exact L a b = false -> (points (line_through exact L a b) q <-> join a b q).
Proof.
  intros N. destruct (through_dir a b N) as (P & Ex & Ey). cbv zeta in *. set (n := sqrt _) in *.
  unfold points, join. rewrite Ex, Ey. change (lpos (line_through exact L a b)) with a. split.
  - intros (t & Hx & Hy). exists (t / n). rewrite Hx, Hy. split; field; lra.
  - intros (t & Hx & Hy). exists (t * n). rewrite Hx, Hy. split; field; lra.
Qed.
Lemma measures_ext l S S' : (forall q, S q <-> S' q) -> measures l S -> measures l S'.
Proof.
  intros E (H0 & H). split; [apply E; exact H0|]. intros p. destruct (H p) as (H1 & H2 & H3 & H4 & H5 & H6 & H7).
  split; [apply E; exact H1|]. split; [exact H2|]. split; [intros q Hq; apply H3, E, Hq|].
  split; [rewrite <- E; exact H4|]. auto.
Qed.
Lemma near_dir a b : eq2 exact L a b = true -> X (ldir (line_through exact L a b)) = 1 /\ Y (ldir (line_through exact L a b)) = 0.
Proof. intros N. unfold line_through. rewrite N. split; reflexivity. Qed.

(** ** Translation *)
Hypothesis At2 : is_atan2 at2.
Lemma unit_angle l : unit_dir l ->
  cos (angle exact L l) = X (ldir l) /\ sin (angle exact L l) = Y (ldir l).
Proof.
  unfold unit_dir. intros U. unfold angle. cbn [exact_geom gatan2]. fold (X (ldir l)) (Y (ldir l)).
  destruct At2 as [_ H]. destruct (H (Y (ldir l)) (X (ldir l))) as (H1 & H2).
  - destruct (Req_dec (X (ldir l)) 0); [right|auto]. intros Z. rewrite H0, Z in U. lra.
  - rewrite U, sqrt_1 in H1, H2. lra.
Qed.
Lemma plus_eq l v : unit_dir l -> line_plus exact L l v = line_add exact l v.
Proof.
  intros U. destruct (unit_angle l U) as (C & S). unfold line_plus, line_add, line_at. f_equal.
  apply pt_eq; [exact C|exact S].
Qed.
Lemma add_points l v q : points (line_add exact l v) q <-> translated (points l) v q.
Proof.
  unfold points, translated, line_add. cbn [lpos ldir].
  change (X (add2 exact (lpos l) v)) with (X (lpos l) + X v).
  change (Y (add2 exact (lpos l) v)) with (Y (lpos l) + Y v).
  change (X (xy (X q - X v) (Y q - Y v))) with (X q - X v).
  change (Y (xy (X q - X v) (Y q - Y v))) with (Y q - Y v).
  split; intros (t & Hx & Hy); exists t; split; lra.
Qed.

(** ** Intersection *)
Definition crossing (l m : line exact) : R := Y (ldir l) * X (ldir m) - X (ldir l) * Y (ldir m).
Lemma parallel_iff l m : isParallel exact L l m = true <-> Rabs (crossing l m) < eps * 10.
Proof.
  unfold isParallel. cbn [exact_geom gequal10]. unfold exact_equal.
  change (cross exact l m) with (crossing l m). change (aZ exact 0) with 0. rewrite Rminus_0_r.
  destruct (Rltb_spec (Rabs (crossing l m)) (eps * 10)); intuition congruence.
Qed.
Lemma intersection_none l m : intersection exact L l m = None <-> isParallel exact L l m = true.
Proof.
  unfold intersection, isParallel. destruct (gequal10 L (cross exact l m) (aZ exact 0)); split; congruence.
Qed.
Lemma intersection_some l m p : intersection exact L l m = Some p ->
  points l p /\ points m p /\ forall q, points l q -> points m q -> q = p.
Proof.
  intros E.
  assert (N : crossing l m <> 0).
  { intros Z. assert (H : isParallel exact L l m = true).
    { apply parallel_iff. rewrite Z, Rabs_R0. lra. }
    apply intersection_none in H. congruence. }
  unfold intersection in E. destruct (gequal10 _ _ _); [discriminate|]. injection E as <-.
  unfold points, crossing in *.
  set (ax := X (lpos l)). set (ay := Y (lpos l)). set (bx := X (lpos m)). set (by_ := Y (lpos m)).
  set (dx := X (ldir l)) in *. set (dy := Y (ldir l)) in *. set (ex := X (ldir m)) in *. set (ey := Y (ldir m)) in *.
  set (D := dy * ex - dx * ey) in *.
  set (na := (ey * (ax - bx) - ex * (ay - by_)) / D).
  assert (Px : forall z, X (add2 exact (lpos l) (P2 (amul exact (px2 (ldir l)) na) z)) = ax + dx * na) by reflexivity.
  assert (Py : forall z, Y (add2 exact (lpos l) (P2 z (amul exact (py2 (ldir l)) na))) = ay + dy * na) by reflexivity.
  change (adiv exact _ (cross exact l m)) with na. rewrite Px, Py.
  split; [exists na; split; ring|]. split.
  - exists ((dy * (ax - bx) - dx * (ay - by_)) / D). unfold na. split; unfold D; field; exact N.
  - intros q (t & Hx & Hy) (s & Hx' & Hy').
    assert (T : t = na).
    { assert (t * D = ey * (ax - bx) - ex * (ay - by_)).
      { assert (A1 : ax + t * dx - bx = s * ex) by lra. assert (A2 : ay + t * dy - by_ = s * ey) by lra.
        unfold D. assert (A3 : ey * (ax + t * dx - bx) - ex * (ay + t * dy - by_) = 0) by (rewrite A1, A2; ring). lra. }
      unfold na. rewrite <- H. field. exact N. }
    apply pt_eq; rewrite ?Px, ?Py; subst t; lra.
Qed.

(** ** Best fitting line *)
Lemma total_ext f g l : (forall p, In p l -> f p = g p) -> total f l = total g l.
Proof.
  induction l as [|a l IH]; intros H; [reflexivity|]. cbn. rewrite (H a) by (left; reflexivity).
  fold (total f l) (total g l). rewrite IH; [reflexivity|]. intros p Hp. apply H. right. exact Hp.
Qed.
Lemma total_nonneg f l : (forall p, In p l -> 0 <= f p) -> 0 <= total f l.
Proof.
  induction l as [|a l IH]; intros H; [apply Rle_refl|]. cbn. fold (total f l).
  assert (0 <= f a) by (apply H; left; reflexivity).
  assert (0 <= total f l) by (apply IH; intros p Hp; apply H; right; exact Hp). lra.
Qed.
Lemma total_zero f l : (forall p, In p l -> 0 <= f p) -> total f l = 0 -> forall p, In p l -> f p = 0.
Proof.
  induction l as [|a l IH]; intros H E p Hp; [destruct Hp|]. cbn in E. fold (total f l) in E.
  assert (0 <= f a) by (apply H; left; reflexivity).
  assert (0 <= total f l) by (apply total_nonneg; intros q Hq; apply H; right; exact Hq).
  destruct Hp as [<-|Hp]; [lra|]. apply IH; auto; [|lra]. intros q Hq. apply H. right. exact Hq.
Qed.
Lemma total_cons f a l : total f (a :: l) = f a + total f l.
Proof. reflexivity. Qed.

Lemma fold_sums l : forall a b c d e,
  fold_left (sum_step exact) l (a, b, c, d, e) =
  (a + total X l, b + total Y l, c + total (fun p => X p * X p) l, d + total (fun p => Y p * Y p) l,
   e + total (fun p => X p * Y p) l).
Proof.
  induction l as [|p l IH]; intros a b c d e.
  - cbn. rewrite !Rplus_0_r. reflexivity.
  - cbn [fold_left sum_step]. rewrite IH, !total_cons. cbn. unfold X, Y. rewrite !Rplus_assoc. reflexivity.
Qed.

Section FIT.
Variable l : list pt.
Hypothesis Hl : (2 <= length l)%nat.
Let n := INR (length l).
Let mx := mean X l.
Let my := mean Y l.
Let sx := total (fun p => X p * X p) l / n - mx * mx.
Let sy := total (fun p => Y p * Y p) l / n - my * my.
Let c := total (fun p => X p * Y p) l / n - mx * my.

Lemma n_pos : 0 < n.
Proof. unfold n. apply lt_0_INR. lia. Qed.

(** the squared errors as a polynomial *)
Lemma expand (f g : pt -> R) a b (k : list pt) :
  total (fun p => (g p - a - b * f p) * (g p - a - b * f p)) k =
  total (fun p => g p * g p) k + INR (length k) * (a * a) + b * b * total (fun p => f p * f p) k
  - 2 * a * total g k - 2 * b * total (fun p => f p * g p) k + 2 * a * b * total f k.
Proof.
  induction k as [|p k IH]; [cbn; ring|].
  rewrite !total_cons, IH. change (length (p :: k)) with (S (length k)). rewrite S_INR. ring.
Qed.
Lemma spread_var f : spread f l = n * (total (fun p => f p * f p) l / n - mean f l * mean f l).
Proof.
  unfold spread. pose proof n_pos as P.
  rewrite (total_ext _ (fun p => (f p - mean f l - 0 * f p) * (f p - mean f l - 0 * f p))) by (intros; ring).
  rewrite (expand f f). fold n. unfold mean. fold n. field. lra.
Qed.
Lemma errors_y_eq a b :
  errors_y l a b = n * (sy - 2 * b * c + b * b * sx + (my - a - b * mx) * (my - a - b * mx)).
Proof.
  unfold errors_y. rewrite (expand X Y). unfold sx, sy, c, mx, my, mean. fold n. pose proof n_pos. field. lra.
Qed.
Lemma errors_x_eq a b :
  errors_x l a b = n * (sx - 2 * b * c + b * b * sy + (mx - a - b * my) * (mx - a - b * my)).
Proof.
  unfold errors_x. rewrite (expand Y X).
  rewrite (total_ext (fun p => Y p * X p) (fun p => X p * Y p)) by (intros; ring).
  unfold sx, sy, c, mx, my, mean. fold n. pose proof n_pos. field. lra.
Qed.
Lemma spread_x : spread X l = n * sx.
Proof. apply spread_var. Qed.
Lemma spread_y : spread Y l = n * sy.
Proof. apply spread_var. Qed.
Lemma spread_nonneg f : 0 <= spread f l.
Proof. apply total_nonneg. intros p _. apply Rle_0_sqr. Qed.
Lemma sx_nonneg : 0 <= sx.
Proof. pose proof (spread_nonneg X). rewrite spread_x in H. pose proof n_pos. nra. Qed.
Lemma sy_nonneg : 0 <= sy.
Proof. pose proof (spread_nonneg Y). rewrite spread_y in H. pose proof n_pos. nra. Qed.

Lemma fit_eq : bestFittingLine exact L l =
  line_at exact L (xy mx my) (if Rltb sy sx then at2 c sx else at2 sy c).
Proof.
  unfold bestFittingLine. change (@length (point2 exact) l) with (@length pt l).
  assert (E : (Z.of_nat (@length pt l) <? 2)%Z = false) by (apply Z.ltb_ge; lia).
  rewrite E. rewrite fold_sums. cbn [aZ adiv asub amul exact alt]. rewrite !Rplus_0_l, <- INR_IZR_INZ. fold n.
  change (total X l / n) with mx. change (total Y l / n) with my.
  fold sx sy c. cbn [exact_geom gatan2].
  destruct (Rltb sy sx); reflexivity.
Qed.

Lemma fit_wide : sy < sx -> forall q, points (bestFittingLine exact L l) q <-> Y q = (my - c / sx * mx) + c / sx * X q.
Proof.
  intros W q. rewrite fit_eq. destruct (Rltb_spec sy sx); [|lra].
  pose proof sy_nonneg. assert (P : 0 < sx) by lra.
  destruct At2 as [_ H2]. destruct (H2 c sx) as (E1 & E2); [left; lra|].
  set (s := sqrt _) in *. set (t := at2 c sx) in *.
  assert (C : cos t <> 0) by (intros Z; rewrite Z in E1; lra).
  assert (S0 : s <> 0) by (intros Z; rewrite Z in E1; lra).
  assert (K : c / sx = sin t / cos t) by (rewrite E2, E1 at 1; field; auto).
  rewrite K. rewrite at_points. unfold ray. change (X (xy mx my)) with mx. change (Y (xy mx my)) with my. split.
  - intros (u & -> & ->). field. exact C.
  - intros ->. exists ((X q - mx) / cos t). split; field; exact C.
Qed.
Lemma fit_tall : sx <= sy -> 0 < sy -> forall q, points (bestFittingLine exact L l) q <-> X q = (mx - c / sy * my) + c / sy * Y q.
Proof.
  intros W P q. rewrite fit_eq. destruct (Rltb_spec sy sx); [lra|].
  destruct At2 as [_ H2]. destruct (H2 sy c) as (E1 & E2); [right; lra|].
  set (s := sqrt _) in *. set (t := at2 sy c) in *.
  assert (C : sin t <> 0) by (intros Z; rewrite Z in E2; lra).
  assert (S0 : s <> 0) by (intros Z; rewrite Z in E2; lra).
  assert (K : c / sy = cos t / sin t) by (rewrite E1, E2 at 1; field; auto).
  rewrite K. rewrite at_points. unfold ray. change (X (xy mx my)) with mx. change (Y (xy mx my)) with my. split.
  - intros (u & -> & ->). field. exact C.
  - intros ->. exists ((Y q - my) / sin t). split; field; exact C.
Qed.
Lemma best_y a b : 0 < sx -> errors_y l (my - c / sx * mx) (c / sx) <= errors_y l a b.
Proof.
  intros P. rewrite !errors_y_eq. pose proof n_pos. apply Rmult_le_compat_l; [lra|].
  pose proof (Rle_0_sqr (my - a - b * mx)) as H1. unfold Rsqr in H1.
  assert (E : sy - 2 * b * c + b * b * sx = sy - c * c / sx + sx * ((b - c / sx) * (b - c / sx))) by (field; lra).
  assert (E' : sy - 2 * (c / sx) * c + c / sx * (c / sx) * sx = sy - c * c / sx) by (field; lra).
  rewrite E, E'. pose proof (Rle_0_sqr (b - c / sx)) as H2. unfold Rsqr in H2.
  replace (my - (my - c / sx * mx) - c / sx * mx) with 0 by ring. nra.
Qed.
Lemma best_x a b : 0 < sy -> errors_x l (mx - c / sy * my) (c / sy) <= errors_x l a b.
Proof.
  intros P. rewrite !errors_x_eq. pose proof n_pos. apply Rmult_le_compat_l; [lra|].
  pose proof (Rle_0_sqr (mx - a - b * my)) as H1. unfold Rsqr in H1.
  assert (E : sx - 2 * b * c + b * b * sy = sx - c * c / sy + sy * ((b - c / sy) * (b - c / sy))) by (field; lra).
  assert (E' : sx - 2 * (c / sy) * c + c / sy * (c / sy) * sy = sx - c * c / sy) by (field; lra).
  rewrite E, E'. pose proof (Rle_0_sqr (b - c / sy)) as H2. unfold Rsqr in H2.
  replace (mx - (mx - c / sy * my) - c / sy * my) with 0 by ring. nra.
Qed.
Lemma wide_iff : spread Y l < spread X l <-> sy < sx.
Proof. rewrite spread_x, spread_y. pose proof n_pos. split; nra. Qed.
Lemma tall_iff : spread X l <= spread Y l <-> sx <= sy.
Proof. rewrite spread_x, spread_y. pose proof n_pos. split; nra. Qed.
Lemma sy_pos_iff : 0 < spread Y l <-> 0 < sy.
Proof. rewrite spread_y. pose proof n_pos. split; nra. Qed.
Lemma sx_zero f k : (forall p, In p l -> f p = k) -> spread f l = 0.
Proof.
  intros H. assert (M : mean f l = k).
  { unfold mean. rewrite (total_ext f (fun p => 0 * X p + k)) by (intros p Hp; rewrite (H p Hp); ring).
    fold n. assert (T : total (fun p => 0 * X p + k) l = n * k).
    { clear H Hl. unfold n. clear n mx my sx sy c. induction l as [|a k' IH]; [cbn; ring|]. rewrite total_cons, IH. change (length (a :: k')) with (S (length k')). rewrite S_INR. ring. }
    rewrite T. pose proof n_pos. field. lra. }
  unfold spread. rewrite M. rewrite (total_ext _ (fun p => 0 * X p + 0)) by (intros p Hp; rewrite (H p Hp); ring).
  clear H M. induction l as [|a k' IH]; [reflexivity|]. rewrite total_cons. 
  clear. induction k' as [|b k' IH]; [cbn; ring|]. rewrite total_cons in *. lra.
Qed.
End FIT.
End CONS.

(** atan2 exists *)
Definition atan2_R (y x : R) : R :=
  if Rltb y 0 then - acos (x / sqrt (x * x + y * y)) else if Rltb 0 (x * x + y * y) then acos (x / sqrt (x * x + y * y)) else 0.
Lemma atan2_R_ok : is_atan2 atan2_R.
Proof.
  split.
  - unfold atan2_R. replace (0 * 0 + 0 * 0) with 0 by ring. destruct (Rltb_spec 0 0); [lra|reflexivity].
  - intros y x N. set (r := sqrt (x * x + y * y)).
    assert (P : 0 < x * x + y * y).
    { pose proof (Rle_0_sqr x). pose proof (Rle_0_sqr y). unfold Rsqr in *. destruct N; nra. }
    assert (R0 : 0 < r) by (apply sqrt_lt_R0; exact P).
    assert (RR : r * r = x * x + y * y) by (apply sqrt_sqrt; lra).
    assert (B : -1 <= x / r <= 1).
    { assert (- r <= x <= r) by (split; nra). split; apply (Rmult_le_reg_r r); try lra; unfold Rdiv; rewrite Rmult_assoc, Rinv_l; lra. }
    assert (S : sin (acos (x / r)) = Rabs y / r).
    { rewrite sin_acos by exact B. replace (1 - (x / r)²) with ((y / r)²).
      - rewrite sqrt_Rsqr_abs. unfold Rdiv. rewrite Rabs_mult, (Rabs_right (/ r)); [reflexivity|].
        left. apply Rinv_0_lt_compat. exact R0.
      - unfold Rsqr. replace (y / r * (y / r)) with (y * y / (r * r)) by (field; lra).
        replace (x / r * (x / r)) with (x * x / (r * r)) by (field; lra). rewrite RR. field. lra. }
    unfold atan2_R. fold r. destruct (Rltb_spec y 0).
    + rewrite cos_neg, sin_neg, cos_acos by exact B. rewrite S, Rabs_left by assumption. split; field; lra.
    + destruct (Rltb_spec 0 (x * x + y * y)); [|lra].
      rewrite cos_acos by exact B. rewrite S, Rabs_right by lra. split; field; lra.
Qed.
