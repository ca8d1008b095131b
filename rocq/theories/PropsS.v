(** Properties C112 to C116: Shift and Rotate. *)
From Coq Require Import ZArith List Bool Reals Lia Lra Floats.SpecFloat.
From Flocq Require Import Core IEEE754.BinarySingleNaN.
From Verif Require Import Base Image Spec BaseProofs ImgFun ImgLemmas Double DoubleProofs Warp WarpSpec WarpProofs
  RotateProofs PropsA.
Import ListNotations.
Open Scope Z_scope.

(** A gray-scale image and a region of it. *)
Definition gray_area (m : mem) (im : image) (x y w h : Z) : Prop :=
  wf m im /\ icc im = 1 /\ roi_in im x y w h /\ bytes m im.

(** The call was rejected, or it returned and changed only the region of the output image. *)
Definition harmless (r : res mem mem) (m : mem) (out : image) (x y w h : Z) : Prop :=
  rejected r m \/ exists m', r = Ok m' /\ only_roi_changed m m' out x y w h.

Lemma writes_harmless r m out x y w h v : writes r m out x y w h v -> harmless r m out x y w h.
Proof. intros (m' & E & _ & O). right. exists m'. split; assumption. Qed.

(** ** C112 *)

Definition C112_claim : Prop := forall m inp xi yi out xo yo w h sx sy,
  gray_area m inp xi yi w h -> gray_area m out xo yo w h ->
  disjoint inp 0 0 (iw inp) (ih inp) out xo yo w h ->
  harmless (Shift m inp xi yi out xo yo w h sx sy) m out xo yo w h.

(** Two images of 2 x 2 pixels without padding. *)
Definition tight : mem := fun b => mkBlock 4 (fun o => (o * 37 + b * 11) mod 256).
Lemma tight_bytes im : bytes tight im.
Proof. intros x y c _ _ _. unfold pixel, get, tight. cbn [bget]. apply Z.mod_pos_bound. lia. Qed.

Theorem C112_shift_safe_refuted : ~ C112_claim.
Proof.
  intros H. specialize (H tight (img 1 2 2 1 2) 0 0 (img 2 2 2 1 2) 0 0 2 2 (dofZ 0) (dofZ 0)).
  assert (E : Shift tight (img 1 2 2 1 2) 0 0 (img 2 2 2 1 2) 0 0 2 2 (dofZ 0) (dofZ 0) = UB) by (vm_compute; reflexivity).
  rewrite E in H. clear E.
  destruct H as [H|(m' & H & _)]; try discriminate H.
  - split; [solve_wf|]. split; [reflexivity|]. split; [solve_roi|apply tight_bytes].
  - split; [solve_wf|]. split; [reflexivity|]. split; [solve_roi|apply tight_bytes].
  - solve_disjoint.
Qed.

(** The same with a shift to the right, and a shift that is not a number. *)
Example C112_right_case : Shift tight (img 1 2 2 1 2) 0 0 (img 2 2 2 1 2) 0 0 2 2 (dofZ 1) (dofZ 1) = UB.
Proof. vm_compute. reflexivity. Qed.
Example C112_nan_case : Shift emem (img 1 5 5 1 8) 1 1 (img 2 5 5 1 8) 1 1 2 2 S754_nan (dofZ 0) = UB.
Proof. vm_compute. reflexivity. Qed.

(** Columns and rows that are read lie inside the image. *)
Definition cols_ok (r : R) (x w W : Z) : Prop :=
  (r <= -1)%R \/ (r <= 0)%R /\ x + w < W \/ (0 < r)%R /\ ((r <= IZR x)%R \/ w < W).
Definition rows_ok (r : R) (y h H : Z) : Prop := (r <= -1)%R \/ (0 < r)%R \/ y + h < H.

Lemma floor_pos r : (r <= -1)%R -> 0 < Zfloor (- r).
Proof. intros H. assert (1 <= Zfloor (- r)) by (apply Zfloor_lub; lra). lia. Qed.
Lemma floor_neg r : (0 < r)%R -> Zfloor (- r) < 0.
Proof. intros H. apply lt_IZR. eapply Rle_lt_trans; [apply Zfloor_lb|]. lra. Qed.
Lemma floor_non r : (r <= 0)%R -> 0 <= Zfloor (- r).
Proof. intros H. apply Zfloor_lub. lra. Qed.

Lemma cols_safe r x w W : cols_ok r x w W -> safe_cols x w W (Zfloor (- r)).
Proof.
  intros [H|[(H & L)|(H & L)]]; unfold safe_cols.
  - pose proof (floor_pos r H). lia.
  - pose proof (floor_non r H). lia.
  - pose proof (floor_neg r H). destruct L as [L|L]; [|lia].
    assert (- x <= Zfloor (- r)) by (apply Zfloor_lub; rewrite opp_IZR; lra). lia.
Qed.
Lemma rows_safe r y h H : rows_ok r y h H -> safe_rows y h H (Zfloor (- r)).
Proof.
  intros [L|[L|L]]; unfold safe_rows; [pose proof (floor_pos r L)|pose proof (floor_neg r L)|]; lia.
Qed.

Theorem C112_shift_safe_partial m inp xi yi out xo yo w h sx sy rx ry :
  gray_area m inp xi yi w h -> gray_area m out xo yo w h ->
  disjoint inp 0 0 (iw inp) (ih inp) out xo yo w h ->
  ih inp * irs inp < 2 ^ 31 -> isR sx rx -> isR sy ry ->
  cols_ok rx xi w (iw inp) -> rows_ok ry yi h (ih inp) ->
  harmless (Shift m inp xi yi out xo yo w h sx sy) m out xo yo w h.
Proof.
  intros (W1 & C1 & R1 & B1) (Wo & Co & Ro & Bo) D HI Hx Hy Gx Gy. change (2 ^ 31) with I32 in HI.
  destruct (Rle_or_lt (Rabs rx) (IZR (w - 1))) as [Cx|Cx]; [destruct (Rle_or_lt (Rabs ry) (IZR (h - 1))) as [Cy|Cy]|].
  - destruct (weight_ex rx) as (ax & Wx). destruct (weight_ex ry) as (ay & Wy).
    destruct (Shift_split m inp xi yi out xo yo w h sx sy rx ry ax ay) as (q0 & q1 & q2 & q3 & _ & _ & _ & _ & E);
      auto. rewrite E. eapply writes_harmless. apply tail_writes; auto using floor_range, cols_safe, rows_safe.
  - left. unfold rejected. pose proof (wf_rs _ _ W1) as Hrs. rewrite C1 in Hrs.
    pose proof (wf_h _ _ W1). pose proof (wf_w _ _ W1). unfold I32 in HI.
    assert (Hw : 0 < w < 2147483648) by (destruct R1; nia). assert (Hh : 0 < h < 2147483648) by (destruct R1; nia).
    unfold Shift, valid_roi2, is_gray. rewrite !(valid_roi_ok m) by assumption. rewrite C1, Co.
    cbn [andb Z.eqb GRAY_SCALE Pos.eqb]. rewrite !u32_small by (unfold W32; lia).
    rewrite (isR_lt _ _ _ _ (isR_ofZ (h - 1) ltac:(lia)) (isR_abs _ _ Hy)).
    rewrite Rlt_bool_true by exact Cy. rewrite orb_true_r. reflexivity.
  - left. unfold rejected. pose proof (wf_rs _ _ W1) as Hrs. rewrite C1 in Hrs.
    pose proof (wf_h _ _ W1). pose proof (wf_w _ _ W1). unfold I32 in HI.
    assert (Hw : 0 < w < 2147483648) by (destruct R1; nia). assert (Hh : 0 < h < 2147483648) by (destruct R1; nia).
    unfold Shift, valid_roi2, is_gray. rewrite !(valid_roi_ok m) by assumption. rewrite C1, Co.
    cbn [andb Z.eqb GRAY_SCALE Pos.eqb]. rewrite !u32_small by (unfold W32; lia).
    rewrite (isR_lt _ _ _ _ (isR_ofZ (w - 1) ltac:(lia)) (isR_abs _ _ Hx)).
    rewrite Rlt_bool_true by exact Cx. reflexivity.
Qed.

(** Some doubles *)
Lemma isR_finite s p e (H : bounded 53 1024 p e = true) :
  isR (S754_finite s p e) (F2R (Float radix2 (cond_Zopp s (Zpos p)) e)).
Proof. exists (B754_finite s p e H). split; [reflexivity|]. split; reflexivity. Qed.

Definition d_3_2 : double := S754_finite false 6755399441055744 (-52).
Lemma isR_3_2 : isR d_3_2 (3 / 2).
Proof.
  assert (E : (3 / 2)%R = F2R (Float radix2 (cond_Zopp false 6755399441055744) (-52))) by (unfold F2R; simpl; lra).
  rewrite E. apply isR_finite. reflexivity.
Qed.
Definition d_m5_2 : double := S754_finite true 5629499534213120 (-51).
Lemma isR_m5_2 : isR d_m5_2 (- (5 / 2)).
Proof.
  assert (E : (- (5 / 2))%R = F2R (Float radix2 (cond_Zopp true 5629499534213120) (-51))) by (unfold F2R; simpl; lra).
  rewrite E. apply isR_finite. reflexivity.
Qed.

Ltac solve_gray := lazymatch goal with |- gray_area _ _ _ _ _ _ =>
  split; [solve_wf|]; split; [reflexivity|]; split; [solve_roi|apply emem_bytes] end.

Example C112_case : harmless (Shift emem (img 1 9 9 1 9) 2 2 (img 2 8 8 1 8) 1 1 4 4 d_3_2 d_m5_2) emem (img 2 8 8 1 8) 1 1 4 4.
Proof.
  apply (C112_shift_safe_partial _ _ _ _ _ _ _ _ _ _ _ (3 / 2) (- (5 / 2))); auto using isR_3_2, isR_m5_2;
    try solve_gray; try solve_disjoint; [cbn; lia| |].
  - right. right. cbn. lra.
  - left. lra.
Qed.

(** ** C113 *)

(** Every output pixel is the image at the point moved back by the shift, to within 27/50; black
    where the point is not surrounded by pixels of the image. *)
Definition moved (m : mem) (inp : image) (xi yi w h : Z) (rx ry : R) (V : Z -> Z -> Z) : Prop :=
  forall i j, 0 <= i < w -> 0 <= j < h ->
    sampled (/ 25) m inp 0 0 (iw inp) (ih inp) (IZR (xi + i) - rx) (IZR (yi + j) - ry) (V i j).

Definition C113_claim (P : R -> R -> Prop) : Prop := forall m inp xi yi out xo yo w h sx sy rx ry,
  gray_area m inp xi yi w h -> gray_area m out xo yo w h ->
  disjoint inp 0 0 (iw inp) (ih inp) out xo yo w h ->
  ih inp * irs inp < 2 ^ 31 -> isR sx rx -> isR sy ry -> P rx ry ->
  (Rabs rx <= IZR (w - 1))%R -> (Rabs ry <= IZR (h - 1))%R ->
  cols_ok rx xi w (iw inp) -> rows_ok ry yi h (ih inp) ->
  exists V, writes (Shift m inp xi yi out xo yo w h sx sy) m out xo yo w h (fun i j _ => V i j) /\
    moved m inp xi yi w h rx ry V.

(** The weight of the right and of the lower pixels: the fraction of the position, but 1 for a
    shift by a whole number. *)
Definition share (r f : R) : Prop :=
  (forall k, r = IZR k -> f = 1%R) /\ ((forall k, r <> IZR k) -> f = (- r - IZR (Zfloor (- r)))%R).

Lemma share_weight r f : share r f -> weight r (1 - f).
Proof.
  intros (H1 & H2). split.
  - intros H. rewrite (H1 _ H). lra.
  - intros H. rewrite H2; [lra|]. intros k ->. apply H. unfold whole. rewrite Ztrunc_IZR. reflexivity.
Qed.
Lemma share_ex r : exists f, share r f.
Proof.
  destruct (Req_dec r (IZR (Ztrunc r))) as [H|H].
  - exists 1%R. split; [reflexivity|]. intros H'. destruct (H' _ H).
  - exists (- r - IZR (Zfloor (- r)))%R. split; [|reflexivity]. intros k ->. rewrite Ztrunc_IZR in H. lra.
Qed.

(** What the code computes for every shift. *)
Theorem C113_shift_weights m inp xi yi out xo yo w h sx sy rx ry f g :
  gray_area m inp xi yi w h -> gray_area m out xo yo w h ->
  disjoint inp 0 0 (iw inp) (ih inp) out xo yo w h ->
  ih inp * irs inp < 2 ^ 31 -> isR sx rx -> isR sy ry -> share rx f -> share ry g ->
  (Rabs rx <= IZR (w - 1))%R -> (Rabs ry <= IZR (h - 1))%R ->
  (rx <= IZR xi)%R -> rows_ok rx xi w (iw inp) -> rows_ok ry yi h (ih inp) ->
  exists V, writes (Shift m inp xi yi out xo yo w h sx sy) m out xo yo w h (fun i j _ => V i j) /\
    forall i j, 0 <= i < w -> 0 <= j < h ->
      let x := xi + i + Zfloor (- rx) in
      let y := yi + j + Zfloor (- ry) in
      (0 <= x /\ x + 1 < iw inp /\ 0 <= y /\ y + 1 < ih inp ->
         0 <= V i j <= 255 /\ (Rabs (IZR (V i j) - mix m inp x y f g) <= 27 / 50)%R) /\
      (~ (0 <= x /\ x + 1 < iw inp /\ 0 <= y /\ y + 1 < ih inp) -> V i j = 0).
Proof.
  intros (W1 & C1 & R1 & B1) (Wo & Co & Ro & Bo) D HI Hx Hy Fx Fy Cx Cy Lx Gx Gy. change (2 ^ 31) with I32 in HI.
  assert (Gx' : cols_ok rx xi w (iw inp)).
  { destruct Gx as [G|[G|G]]; [left; exact G|right; right; auto|]. destruct (Rle_or_lt rx 0); [right; left; auto|].
    right; right; auto. }
  destruct (Shift_split m inp xi yi out xo yo w h sx sy rx ry (1 - f) (1 - g))
    as (q0 & q1 & q2 & q3 & Q0 & Q1 & Q2 & Q3 & E); auto using share_weight.
  pose proof (floor_range rx w Cx) as Nx. pose proof (floor_range ry h Cy) as Ny.
  exists (fun i j => shift_val m inp xi yi w h (Zfloor (- rx)) (Zfloor (- ry)) (q0, q1, q2, q3) j i).
  split; [rewrite E; apply tail_writes; auto using cols_safe, rows_safe|].
  intros i j Hi Hj. cbv zeta.
  rewrite shift_val_in; auto.
  2:{ left. assert (- xi <= Zfloor (- rx)) by (apply Zfloor_lub; rewrite opp_IZR; lra). lia. }
  2:{ exact (rows_safe _ _ _ _ Gx). }
  2:{ exact (rows_safe _ _ _ _ Gy). }
  replace (xi + Zfloor (- rx) + i) with (xi + i + Zfloor (- rx)) by lia.
  replace (yi + Zfloor (- ry) + j) with (yi + j + Zfloor (- ry)) by lia.
  set (x := xi + i + Zfloor (- rx)). set (y := yi + j + Zfloor (- ry)).
  destruct ((0 <=? x) && (x + 1 <? iw inp) && (0 <=? y) && (y + 1 <? ih inp)) eqn:Eb.
  - rewrite !andb_true_iff, !Z.leb_le, !Z.ltb_lt in Eb. split; [intros _|lia].
    assert (P : forall a b, 0 <= a <= 1 -> 0 <= b <= 1 -> 0 <= pixel m inp (x + a) (y + b) 0 <= 255).
    { intros a b Ha Hb. specialize (B1 (x + a) (y + b) 0 ltac:(lia) ltac:(lia) ltac:(lia)). lia. }
    pose proof (P 0 0 ltac:(lia) ltac:(lia)) as P0. pose proof (P 0 1 ltac:(lia) ltac:(lia)) as P1.
    pose proof (P 1 0 ltac:(lia) ltac:(lia)) as P2. pose proof (P 1 1 ltac:(lia) ltac:(lia)) as P3.
    rewrite !Z.add_0_r in P0. rewrite Z.add_0_r in P1, P2.
    destruct (shift_px_near q0 q1 q2 q3 (1 - f) (1 - g) _ _ _ _ Q0 Q1 Q2 Q3 P0 P1 P2 P3) as (A & B).
    split; [exact A|].
    match type of B with (Rabs (_ - ?e) <= _)%R => replace (mix m inp x y f g) with e by (unfold mix; ring) end.
    exact B.
  - split; [|reflexivity]. intros H. exfalso.
    assert (Et : (0 <=? x) && (x + 1 <? iw inp) && (0 <=? y) && (y + 1 <? ih inp) = true);
      [|rewrite Et in Eb; discriminate].
    rewrite !andb_true_iff, !Z.leb_le, !Z.ltb_lt. lia.
Qed.

Lemma floor_shift k r : Zfloor (IZR k - r) = k + Zfloor (- r).
Proof.
  apply Zfloor_imp. rewrite !plus_IZR. pose proof (Zfloor_lb (- r)). pose proof (Zfloor_ub (- r)). lra.
Qed.

(** Shifts that are not whole numbers move the image. *)
Theorem C113_shift_fraction_partial m inp xi yi out xo yo w h sx sy rx ry :
  gray_area m inp xi yi w h -> gray_area m out xo yo w h ->
  disjoint inp 0 0 (iw inp) (ih inp) out xo yo w h ->
  ih inp * irs inp < 2 ^ 31 -> isR sx rx -> isR sy ry ->
  (forall k, rx <> IZR k) -> (forall k, ry <> IZR k) ->
  (Rabs rx <= IZR (w - 1))%R -> (Rabs ry <= IZR (h - 1))%R ->
  (rx <= IZR xi)%R -> rows_ok rx xi w (iw inp) -> rows_ok ry yi h (ih inp) ->
  exists V, writes (Shift m inp xi yi out xo yo w h sx sy) m out xo yo w h (fun i j _ => V i j) /\
    moved m inp xi yi w h rx ry V.
Proof.
  intros H1 H2 D HI Hx Hy Nx Ny Cx Cy Lx Gx Gy.
  destruct (C113_shift_weights m inp xi yi out xo yo w h sx sy rx ry (- rx - IZR (Zfloor (- rx))) (- ry - IZR (Zfloor (- ry))))
    as (V & Wr & Hv); auto.
  { split; [|reflexivity]. intros k Hk. destruct (Nx k Hk). }
  { split; [|reflexivity]. intros k Hk. destruct (Ny k Hk). }
  exists V. split; [exact Wr|]. intros i j Hi Hj. destruct (Hv i j Hi Hj) as (A & B). cbv zeta in A, B.
  unfold sampled, surrounded, bilinear. rewrite !floor_shift.
  set (x := xi + i + Zfloor (- rx)) in *. set (y := yi + j + Zfloor (- ry)) in *.
  split.
  - intros S. destruct A as (A1 & A2); [lia|]. split; [exact A1|].
    replace (IZR (xi + i) - rx - IZR x)%R with (- rx - IZR (Zfloor (- rx)))%R by (unfold x; rewrite !plus_IZR; lra).
    replace (IZR (yi + j) - ry - IZR y)%R with (- ry - IZR (Zfloor (- ry)))%R by (unfold y; rewrite !plus_IZR; lra).
    lra.
  - intros S. apply B. lia.
Qed.

Lemma odd_not_int k n : (IZR (2 * k + 1) / 2)%R <> IZR n.
Proof.
  intros H. assert (E : IZR (2 * k + 1) = IZR (2 * n)) by (rewrite mult_IZR; lra). apply eq_IZR in E. lia.
Qed.

Example C113_fraction_case : exists V,
  writes (Shift emem (img 1 9 9 1 9) 2 2 (img 2 8 8 1 8) 1 1 4 4 d_3_2 d_m5_2) emem (img 2 8 8 1 8) 1 1 4 4 (fun i j _ => V i j) /\
  moved emem (img 1 9 9 1 9) 2 2 4 4 (3 / 2) (- (5 / 2)) V.
Proof.
  apply C113_shift_fraction_partial; auto using isR_3_2, isR_m5_2; try solve_gray; try solve_disjoint; try (cbn; lra).
  - cbn. lia.
  - intros k. apply (odd_not_int 1).
  - intros k. replace (- (5 / 2))%R with (IZR (2 * -3 + 1) / 2)%R by (simpl; lra). apply odd_not_int.
  - rewrite Rabs_pos_eq; cbn; lra.
  - rewrite Rabs_left; cbn; lra.
  - right. left. lra.
  - left. lra.
Qed.

(** A shift by whole numbers moves the image by one pixel less than asked, in both directions. *)
Theorem C113_shift_whole_off_by_one m inp xi yi out xo yo w h sx sy kx ky :
  gray_area m inp xi yi w h -> gray_area m out xo yo w h ->
  disjoint inp 0 0 (iw inp) (ih inp) out xo yo w h ->
  ih inp * irs inp < 2 ^ 31 -> isR sx (IZR kx) -> isR sy (IZR ky) ->
  Z.abs kx < w -> Z.abs ky < h -> kx <= xi -> kx <> 0 \/ xi + w < iw inp -> ky <> 0 \/ yi + h < ih inp ->
  writes (Shift m inp xi yi out xo yo w h sx sy) m out xo yo w h
    (fun i j _ => let x := xi + i - kx + 1 in let y := yi + j - ky + 1 in
       if (1 <=? x) && (x <? iw inp) && (1 <=? y) && (y <? ih inp) then pixel m inp x y 0 else 0).
Proof.
  intros H1 H2 D HI Hx Hy Bx By Lx Gx Gy.
  assert (Co : icc out = 1) by (apply H2).
  assert (Sh : forall k, share (IZR k) 1).
  { intros k. split; [reflexivity|]. intros H. destruct (H k eq_refl). }
  assert (Ro : forall k y h H, k <> 0 \/ y + h < H -> rows_ok (IZR k) y h H).
  { intros k y' h' H' [Hk|Hk]; [|right; right; exact Hk].
    destruct (Z_lt_le_dec k 0); [left; apply IZR_le; lia|right; left; apply IZR_lt; lia]. }
  assert (Ab : forall k n, Z.abs k < n -> (Rabs (IZR k) <= IZR (n - 1))%R).
  { intros k n H. rewrite <- abs_IZR. apply IZR_le. lia. }
  destruct (C113_shift_weights m inp xi yi out xo yo w h sx sy (IZR kx) (IZR ky) 1 1) as (V & (m' & E & P & O) & Hv); auto.
  { apply IZR_le. exact Lx. }
  exists m'. split; [exact E|]. split; [|exact O].
  intros i j c (Hi & Hj & Hc). rewrite P by (repeat split; lia). cbv zeta.
  destruct (Hv i j Hi Hj) as (A & B). cbv zeta in A, B.
  rewrite <- !opp_IZR, !Zfloor_IZR in A. rewrite <- !opp_IZR, !Zfloor_IZR in B.
  destruct ((1 <=? xi + i - kx + 1) && (xi + i - kx + 1 <? iw inp) && (1 <=? yi + j - ky + 1) && (yi + j - ky + 1 <? ih inp)) eqn:Eb.
  - rewrite !andb_true_iff, !Z.leb_le, !Z.ltb_lt in Eb. destruct A as (_ & A); [lia|].
    unfold mix in A. replace (xi + i + - kx + 1) with (xi + i - kx + 1) in A by lia.
    replace (yi + j + - ky + 1) with (yi + j - ky + 1) in A by lia.
    set (p := pixel m inp (xi + i - kx + 1) (yi + j - ky + 1) 0) in *.
    match type of A with (Rabs (?v - ?e) <= _)%R => replace (v - e)%R with (v - IZR p)%R in A by ring end.
    rewrite <- minus_IZR, <- abs_IZR in A.
    assert (H : (IZR (Z.abs (V i j - p)) < 1)%R) by lra. apply lt_IZR in H. lia.
  - apply B. intros H.
    assert (Et : (1 <=? xi + i - kx + 1) && (xi + i - kx + 1 <? iw inp) && (1 <=? yi + j - ky + 1) && (yi + j - ky + 1 <? ih inp) = true);
      [|rewrite Et in Eb; discriminate].
    rewrite !andb_true_iff, !Z.leb_le, !Z.ltb_lt. lia.
Qed.

Lemma isR_two : isR (dofZ 2) 2.
Proof. apply isR_ofZ. lia. Qed.

Example C113_whole_case :
  writes (Shift emem (img 1 9 9 1 9) 2 2 (img 2 8 8 1 8) 1 1 4 4 (dofZ 2) (dofZ 2)) emem (img 2 8 8 1 8) 1 1 4 4
    (fun i j _ => let x := 2 + i - 2 + 1 in let y := 2 + j - 2 + 1 in
       if (1 <=? x) && (x <? 9) && (1 <=? y) && (y <? 9) then pixel emem (img 1 9 9 1 9) x y 0 else 0).
Proof.
  apply (C113_shift_whole_off_by_one emem (img 1 9 9 1 9)); auto using isR_two; try solve_gray; try solve_disjoint; cbn; lia.
Qed.

Lemma bilinear_int m im x y : bilinear m im (IZR x) (IZR y) = IZR (pixel m im x y 0).
Proof. unfold bilinear, mix. rewrite !Zfloor_IZR. ring. Qed.

Theorem C113_shift_whole_refuted : ~ C113_claim (fun rx ry => rx = 2%R /\ ry = 2%R).
Proof.
  intros H.
  specialize (H emem (img 1 9 9 1 9) 2 2 (img 2 8 8 1 8) 1 1 4 4 (dofZ 2) (dofZ 2) 2%R 2%R).
  destruct H as (V & (m' & E & P & _) & M); auto using isR_two; try solve_gray; try solve_disjoint.
  - cbn. lia.
  - rewrite Rabs_pos_eq; cbn; lra.
  - rewrite Rabs_pos_eq; cbn; lra.
  - right. right. cbn. split; [lra|]. left. lra.
  - right. left. lra.
  - destruct C113_whole_case as (m'' & E' & P' & _). rewrite E in E'. injection E' as <-.
    specialize (P 1 1 0 ltac:(cbn; repeat split; lia)). specialize (P' 1 1 0 ltac:(cbn; repeat split; lia)).
    rewrite P in P'. destruct (M 1 1 ltac:(lia) ltac:(lia)) as (A & _).
    rewrite P' in A. replace (IZR (2 + 1) - 2)%R with (IZR 1) in A by (simpl; lra).
    rewrite bilinear_int in A. destruct A as (_ & A).
    + unfold surrounded. rewrite !Zfloor_IZR. cbn. lia.
    + cbv zeta in A. change ((1 <=? 2 + 1 - 2 + 1) && (2 + 1 - 2 + 1 <? 9) && (1 <=? 2 + 1 - 2 + 1) && (2 + 1 - 2 + 1 <? 9)) with true in A.
      cbv iota in A.
      change (pixel emem (img 1 9 9 1 9) (2 + 1 - 2 + 1) (2 + 1 - 2 + 1) 0) with 239 in A.
      change (pixel emem (img 1 9 9 1 9) 1 1 0) with 125 in A.
      apply Rabs_le_inv in A. lra.
Qed.

(** A shift to the right of a region at the left border: the empty columns are not left black. *)
Theorem C113_shift_margin_refuted : ~ C113_claim (fun rx ry => (forall k, rx <> IZR k) /\ (forall k, ry <> IZR k)).
Proof.
  intros H.
  specialize (H emem (img 1 9 9 1 9) 0 2 (img 2 8 8 1 8) 1 1 4 4 d_3_2 d_3_2 (3 / 2)%R (3 / 2)%R).
  destruct H as (V & (m' & E & P & _) & M); auto using isR_3_2; try solve_gray; try solve_disjoint.
  - cbn. lia.
  - split; apply (odd_not_int 1).
  - rewrite Rabs_pos_eq; cbn; lra.
  - rewrite Rabs_pos_eq; cbn; lra.
  - right. right. cbn. split; [lra|]. right. lia.
  - right. left. lra.
  - specialize (P 0 0 0 ltac:(cbn; repeat split; lia)).
    destruct (M 0 0 ltac:(lia) ltac:(lia)) as (_ & A). rewrite A in P.
    + assert (Ev : match Shift emem (img 1 9 9 1 9) 0 2 (img 2 8 8 1 8) 1 1 4 4 d_3_2 d_3_2 with
                   | Ok m => get m (2, 9) =? 0 | _ => true end = false) by (vm_compute; reflexivity).
      rewrite E in Ev. change (get m' (2, 9)) with (pixel m' (img 2 8 8 1 8) (1 + 0) (1 + 0) 0) in Ev.
      rewrite P in Ev. discriminate Ev.
    + unfold surrounded. intros ((S & _) & _). revert S.
      replace (Zfloor (IZR (0 + 0) - 3 / 2)) with (-2); [lia|]. symmetry. apply Zfloor_imp. simpl. lra.
Qed.

(** ** C114 *)

(** What cos and sin return: numbers from -1 to 1. *)
Definition unit_double (x : double) : Prop := exists r, isR x r /\ (Rabs r <= 1)%R.

Definition C114_claim : Prop := forall ca sa m inp xi yi cxi cyi out xo yo cxo cyo w h,
  gray_area m inp xi yi w h -> gray_area m out xo yo w h ->
  disjoint inp xi yi w h out xo yo w h -> unit_double ca -> unit_double sa ->
  harmless (Rotate ca sa m inp xi yi cxi cyi out xo yo cxo cyo w h) m out xo yo w h.

Lemma isR_0 : isR (dofZ 0) 0.
Proof. apply isR_ofZ. lia. Qed.
Lemma isR_1 : isR (dofZ 1) 1.
Proof. apply isR_ofZ. lia. Qed.

(** The centre of rotation is at 2^40. *)
Theorem C114_rotate_safe_refuted : ~ C114_claim.
Proof.
  intros H.
  specialize (H (dofZ 1) (dofZ 0) emem (img 1 5 5 1 8) 1 1 (dofZ 1099511627776) (dofZ 2) (img 2 5 5 1 8) 1 1 (dofZ 1) (dofZ 1) 2 2).
  match type of H with _ -> _ -> _ -> _ -> _ -> harmless ?r _ _ _ _ _ _ => assert (E : r = UB) by (vm_compute; reflexivity) end.
  rewrite E in H. clear E.
  destruct H as [H|(m' & H & _)]; try discriminate H; try solve_gray; try solve_disjoint.
  - exists 1%R. split; [apply isR_1|]. rewrite Rabs_pos_eq; lra.
  - exists 0%R. split; [apply isR_0|]. rewrite Rabs_R0. lra.
Qed.

(** ** C115 *)

Theorem C115_rotate_interpolates ca sa m inp xi yi cxi cyi out xo yo cxo cyo w h c s axi ayi axo ayo :
  gray_area m inp xi yi w h -> gray_area m out xo yo w h -> disjoint inp xi yi w h out xo yo w h ->
  isR ca c -> isR sa s -> (Rabs c <= 1)%R -> (Rabs s <= 1)%R ->
  isR cxi axi -> isR cyi ayi -> isR cxo axo -> isR cyo ayo ->
  (Rabs axi <= 268435456)%R -> (Rabs ayi <= 268435456)%R -> (Rabs axo <= 268435456)%R -> (Rabs ayo <= 268435456)%R ->
  w + h <= 2 ^ 30 ->
  exists (U V : Z -> Z -> R) (val : Z -> Z -> Z),
    writes (Rotate ca sa m inp xi yi cxi cyi out xo yo cxo cyo w h) m out xo yo w h (fun i j _ => val i j) /\
    forall i j, 0 <= i < w -> 0 <= j < h ->
      (Rabs (U i j - (c * (IZR i - axo) + s * (IZR j - ayo) + axi)) <= IZR (i + j + 1) / 2097152)%R /\
      (Rabs (V i j - (- s * (IZR i - axo) + c * (IZR j - ayo) + ayi)) <= IZR (i + j + 1) / 2097152)%R /\
      sampled (/ 1000000000) m inp xi yi w h (U i j) (V i j) (val i j).
Proof.
  intros (W1 & C1 & R1 & B1) (Wo & Co & Ro & Bo) D Hc Hs Bc Bs H1 H2 H3 H4 N1 N2 N3 N4 Hwh.
  assert (E28 : bpow radix2 28 = 268435456%R) by (simpl; lra). rewrite <- E28 in N1, N2, N3, N4.
  destruct (Rotate_value m inp xi yi out xo yo w h ca sa c s cxi cyi cxo cyo axi ayi axo ayo) as (val & Wr & Hv); auto.
  exists (fun i j => dreal (posX ca sa (startX ca sa cxo cyo cxi) i j)),
    (fun i j => dreal (posY ca sa (startY ca sa cxo cyo cyi) i j)), val.
  split; [exact Wr|]. intros i j Hi Hj. destruct (Hv i j Hi Hj) as (A & B & C). unfold located in A, B.
  replace (bpow radix2 (-21)) with (/ 2097152)%R in A, B by (simpl; lra).
  split; [exact A|]. split; [exact B|]. destruct C as (C & C'). split; [|exact C'].
  intros S. destruct (C S) as (X & Y). split; [exact X|]. rewrite tiny_val in Y. lra.
Qed.

Theorem C114_rotate_safe_partial ca sa m inp xi yi cxi cyi out xo yo cxo cyo w h c s axi ayi axo ayo :
  gray_area m inp xi yi w h -> gray_area m out xo yo w h -> disjoint inp xi yi w h out xo yo w h ->
  isR ca c -> isR sa s -> (Rabs c <= 1)%R -> (Rabs s <= 1)%R ->
  isR cxi axi -> isR cyi ayi -> isR cxo axo -> isR cyo ayo ->
  (Rabs axi <= 268435456)%R -> (Rabs ayi <= 268435456)%R -> (Rabs axo <= 268435456)%R -> (Rabs ayo <= 268435456)%R ->
  w + h <= 2 ^ 30 ->
  harmless (Rotate ca sa m inp xi yi cxi cyi out xo yo cxo cyo w h) m out xo yo w h.
Proof.
  intros. destruct (C115_rotate_interpolates ca sa m inp xi yi cxi cyi out xo yo cxo cyo w h c s axi ayi axo ayo)
    as (U & V & val & Wr & _); auto. eapply writes_harmless. exact Wr.
Qed.

(** A quarter turn. *)
Example C115_case : exists (U V : Z -> Z -> R) (val : Z -> Z -> Z),
  writes (Rotate (dofZ 0) (dofZ 1) emem (img 1 9 9 1 9) 1 1 (dofZ 3) d_3_2 (img 2 8 8 1 8) 1 1 (dofZ 2) d_3_2 5 4) emem
    (img 2 8 8 1 8) 1 1 5 4 (fun i j _ => val i j) /\
    forall i j, 0 <= i < 5 -> 0 <= j < 4 ->
      (Rabs (U i j - (0 * (IZR i - 2) + 1 * (IZR j - 3 / 2) + 3)) <= IZR (i + j + 1) / 2097152)%R /\
      (Rabs (V i j - (- 1 * (IZR i - 2) + 0 * (IZR j - 3 / 2) + 3 / 2)) <= IZR (i + j + 1) / 2097152)%R /\
      sampled (/ 1000000000) emem (img 1 9 9 1 9) 1 1 5 4 (U i j) (V i j) (val i j).
Proof.
  apply C115_rotate_interpolates; auto using isR_0, isR_1, isR_3_2, isR_two; try solve_gray; try solve_disjoint;
    try (rewrite Rabs_pos_eq; lra); try lia.
  apply isR_ofZ. lia.
Qed.

(** ** C116 *)

Definition C116_claim : Prop := forall ca sa m inp xi yi cxi cyi out xo yo cxo cyo w h axo ayo,
  gray_area m inp xi yi w h -> gray_area m out xo yo w h -> disjoint inp xi yi w h out xo yo w h ->
  isR ca 1 -> isR sa 0 -> isR cxo axo -> isR cyo ayo -> isR cxi (axo + IZR xi) -> isR cyi (ayo + IZR yi) ->
  writes (Rotate ca sa m inp xi yi cxi cyi out xo yo cxo cyo w h) m out xo yo w h
    (fun i j _ => pixel m inp (xi + i) (yi + j) 0).

Theorem C116_no_rotation_partial ca sa m inp xi yi cxi cyi out xo yo cxo cyo w h axo ayo :
  gray_area m inp xi yi w h -> gray_area m out xo yo w h -> disjoint inp xi yi w h out xo yo w h ->
  isR ca 1 -> isR sa 0 -> isR cxo axo -> isR cyo ayo -> isR cxi (axo + IZR xi) -> isR cyi (ayo + IZR yi) ->
  (Rabs axo <= 134217728)%R -> (Rabs ayo <= 134217728)%R -> xi <= 134217728 -> yi <= 134217728 -> w + h <= 2 ^ 30 ->
  writes (Rotate ca sa m inp xi yi cxi cyi out xo yo cxo cyo w h) m out xo yo w h
    (fun i j _ => if (i <? w - 1) && (j <? h - 1) then pixel m inp (xi + i) (yi + j) 0 else 0).
Proof.
  intros (W1 & C1 & R1 & B1) (Wo & Co & Ro & Bo) D Hc Hs H3 H4 H1 H2 N3 N4 Lx Ly Hwh.
  assert (E28 : bpow radix2 28 = 268435456%R) by (simpl; lra).
  assert (X0 : 0 <= xi) by (apply R1). assert (Y0 : 0 <= yi) by (apply R1).
  assert (Bd : forall r k, (Rabs r <= 134217728)%R -> 0 <= k <= 134217728 -> near28 r /\ near28 (r + IZR k)).
  { intros r k Hr Hk. unfold near28. rewrite E28. split; [lra|]. eapply Rle_trans; [apply Rabs_triang|].
    rewrite <- abs_IZR. assert (IZR (Z.abs k) <= 134217728)%R by (apply IZR_le; lia). lra. }
  destruct (Bd axo xi N3 ltac:(lia)) as (M1 & M2). destruct (Bd ayo yi N4 ltac:(lia)) as (M3 & M4).
  destruct (Rotate_value m inp xi yi out xo yo w h ca sa 1 0 cxi cyi cxo cyo (axo + IZR xi) (ayo + IZR yi) axo ayo)
    as (val & (m' & E & P & O) & Hv); auto.
  { rewrite Rabs_pos_eq; lra. } { rewrite Rabs_R0. lra. }
  exists m'. split; [exact E|]. split; [|exact O].
  intros i j k (Hi & Hj & Hk). rewrite P by (repeat split; lia).
  destruct (Hv i j Hi Hj) as (_ & _ & (A & B)).
  destruct (straight ca sa cxi cyi cxo cyo axo ayo xi yi i j) as (Ex & Ey); auto; try lia.
  rewrite Ex, Ey in A, B. rewrite bilinear_int in A. unfold surrounded in A, B. rewrite !Zfloor_IZR in A, B.
  destruct (Z.ltb_spec i (w - 1)) as [Li|Li]; destruct (Z.ltb_spec j (h - 1)) as [Lj|Lj]; cbn [andb]; try (apply B; lia).
  destruct A as (_ & A); [lia|]. rewrite tiny_val, <- minus_IZR, <- abs_IZR in A.
  assert (L : (IZR (Z.abs (val i j - pixel m inp (xi + i) (yi + j) 0)) < 1)%R) by lra. apply lt_IZR in L. lia.
Qed.

Example C116_case :
  writes (Rotate (dofZ 1) (dofZ 0) emem (img 1 9 9 1 9) 0 0 (dofZ 2) d_3_2 (img 2 8 8 1 8) 1 1 (dofZ 2) d_3_2 5 4) emem
    (img 2 8 8 1 8) 1 1 5 4
    (fun i j _ => if (i <? 5 - 1) && (j <? 4 - 1) then pixel emem (img 1 9 9 1 9) (0 + i) (0 + j) 0 else 0).
Proof.
  apply (C116_no_rotation_partial _ _ _ _ _ _ _ _ _ _ _ _ _ _ _ 2 (3 / 2)); auto using isR_0, isR_1, isR_3_2, isR_two;
    try solve_gray; try solve_disjoint; try (rewrite Rabs_pos_eq; lra); try lia;
    rewrite Rplus_0_r; auto using isR_two, isR_3_2.
Qed.

Theorem C116_no_rotation_refuted : ~ C116_claim.
Proof.
  intros H.
  specialize (H (dofZ 1) (dofZ 0) emem (img 1 9 9 1 9) 0 0 (dofZ 2) d_3_2 (img 2 8 8 1 8) 1 1 (dofZ 2) d_3_2 5 4 2%R (3 / 2)%R).
  destruct H as (m' & E & P' & _); auto using isR_0, isR_1, isR_3_2, isR_two; try solve_gray; try solve_disjoint;
    try (rewrite Rplus_0_r; auto using isR_two, isR_3_2).
  destruct C116_case as (m'' & E' & P & _). rewrite E in E'. injection E' as <-.
  specialize (P 4 0 0 ltac:(cbn; repeat split; lia)). specialize (P' 4 0 0 ltac:(cbn; repeat split; lia)).
  rewrite P in P'. vm_compute in P'. discriminate P'.
Qed.

Print Assumptions C112_shift_safe_refuted.
Print Assumptions C112_shift_safe_partial.
Print Assumptions C113_shift_weights.
Print Assumptions C113_shift_fraction_partial.
Print Assumptions C113_shift_whole_off_by_one.
Print Assumptions C113_shift_whole_refuted.
Print Assumptions C113_shift_margin_refuted.
Print Assumptions C114_rotate_safe_refuted.
Print Assumptions C114_rotate_safe_partial.
Print Assumptions C115_rotate_interpolates.
Print Assumptions C116_no_rotation_partial.
Print Assumptions C116_no_rotation_refuted.
