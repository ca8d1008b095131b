(** Properties C175 and C176: Rotate on a CUDA device. *)
From Coq Require Import ZArith List Bool Reals Lia Lra.
From Flocq Require Import Core.
From Verif Require Import Base Image Spec BaseProofs ImgFun ImgLemmas ImgProofs SafeProofs PropsA.
From Verif Require Import WarpSpec Cuda CudaProofs CudaRuns CudaSums PropsU CudaFft PropsAE CudaRotate.
Import ListNotations.
Open Scope Z_scope.

Ltac Zify.zify_post_hook ::= idtac.

(** ** Pixels of gray-scale images *)
Lemma px_gray im x y : icc im = 1 -> px im x y 0 = padd (ibase im) (y * irs im + x).
Proof. intros H. unfold px, padd. rewrite H. f_equal. lia. Qed.
Lemma px_gray_inb m im x y : wf m im -> icc im = 1 -> 0 <= x < iw im -> 0 <= y < ih im -> inb m (px im x y 0) = true.
Proof.
  intros [Wd Ww Wh _ Wr Ws Wl Whi] Hc Hx Hy. rewrite Hc in Wr. apply inb_iff. rewrite px_gray by assumption. unfold padd. cbn [fst snd]. nia.
Qed.
Lemma px_gray_inj m im x y x' y' : wf m im -> icc im = 1 -> 0 <= x < iw im -> 0 <= x' < iw im ->
  px im x y 0 = px im x' y' 0 -> x = x' /\ y = y'.
Proof.
  intros [Wd Ww Wh _ Wr Ws Wl Whi] Hc Hx Hx' E. rewrite Hc in Wr. rewrite !px_gray in E by assumption.
  apply (f_equal snd) in E. unfold padd in E. cbn [snd] in E. apply (elem_inj (irs im)); lia.
Qed.

Section ANY.
Context (A : farith).
(** A conversion to int32_t gives an int32_t. *)
Definition int32_arith : Prop := forall t, -2147483648 <= fint A t < 2147483648.

Lemma beyond_spec i n : -2147483648 <= i < 2147483648 -> 0 < n < W32 -> beyond i n = false -> 0 <= i /\ i + 1 < n.
Proof.
  intros Hi Hn. unfold beyond. pose proof W32_val. rewrite (u32_small (n - 1)) by lia.
  destruct (Z.ltb_spec i 0); [discriminate|]. rewrite u32_small by lia. cbn [orb].
  destruct (Z.leb_spec (n - 1) i); [discriminate|]. lia.
Qed.
Lemma beyond_spec' i n : -2147483648 <= i < 2147483648 -> 0 < n < W32 -> beyond i n = true -> i < 0 \/ n <= i + 1.
Proof.
  intros Hi Hn. unfold beyond. pose proof W32_val. rewrite (u32_small (n - 1)) by lia.
  destruct (Z.ltb_spec i 0); [lia|]. rewrite u32_small by lia. cbn [orb].
  destruct (Z.leb_spec (n - 1) i); [lia|discriminate].
Qed.

(** What thread (x, y) stores. *)
Definition rot_val (m : mem) (inp : image) (xs ys c s : fnum A) (x y : Z) : Z :=
  let ex := exact_x A xs c s x y in let ey := exact_y A ys c s x y in
  let i := fint A ex in let j := fint A ey in
  if beyond i (iw inp) || beyond j (ih inp) then 0
  else fbyte A (mean4 A (fsub A ex (fofZ A i)) (fsub A ey (fofZ A j))
         (pixel m inp i j 0) (pixel m inp (i + 1) j 0) (pixel m inp i (j + 1) 0) (pixel m inp (i + 1) (j + 1) 0)).

Lemma rotate_run d m inp cxi cyi out cxo cyo c s : int32_arith -> device_ok d ->
  wf m inp -> wf m out -> icc inp = 1 -> icc out = 1 -> iw inp = iw out -> ih inp = ih out ->
  disjoint inp 0 0 (iw inp) (ih inp) out 0 0 (iw out) (ih out) ->
  let xs := fadd A (fopp A (fadd A (fmul A c cxo) (fmul A s cyo))) cxi in
  let ys := fadd A (fopp A (fadd A (fmul A (fopp A s) cxo) (fmul A c cyo))) cyi in
  device_run (comfortable d (iw out) (ih out)) m (fun sch => cuda_Rotate A d sch m inp cxi cyi out cxo cyo c s)
    (fun M => writes (@Ok mem mem M) m out 0 0 (iw out) (ih out) (fun i j _ => rot_val m inp xs ys c s i j)).
Proof.
  intros HI Hd W1 Wo C1 Co Ew Eh D xs ys.
  set (k := rotateKernel A (ibase inp) (irs inp) (ibase out) (irs out) xs ys (iw out) (ih out) c s).
  apply (device_run_ext _ _ (fun sch => launch2D d sch m (iw out) (ih out) k)).
  { intros sch. unfold cuda_Rotate, valid_pair, is_gray. rewrite !(wf_not_empty m), !(color_ok m), Ew, Eh, !Z.eqb_refl, C1, Co by assumption.
    cbn [orb andb negb]. rewrite !dataptr_ibase by (eapply wf_data; eassumption). reflexivity. }
  pose proof Wo as [_ Ww Wh _ Wr Ws _ _]. pose proof W1 as [_ _ _ _ Vr Vs _ _]. rewrite Co in Wr. rewrite C1 in Vr.
  set (w := iw out) in *. set (h := ih out) in *.
  assert (Sw : 0 < w < W32) by nia. assert (Sh : 0 < h < W32) by nia.
  assert (Ek : forall x y, 0 <= x < w -> 0 <= y < h -> k x y =
     let ex := exact_x A xs c s x y in let ey := exact_y A ys c s x y in
     let i := fint A ex in let j := fint A ey in
     if beyond i w || beyond j h then PStore (px out x y 0) 0 PDone
     else PLoad (px inp i j 0) (fun a => PLoad (px inp (i + 1) j 0) (fun b =>
          PLoad (px inp i (j + 1) 0) (fun c => PLoad (px inp (i + 1) (j + 1) 0) (fun d =>
          PStore (px out x y 0) (fbyte A (mean4 A (fsub A ex (fofZ A i)) (fsub A ey (fofZ A j)) a b c d)) PDone))))).
  { intros x y Hx Hy. unfold k, rotateKernel. rewrite in_range_in by lia. cbv zeta.
    assert (Eo : at_ptr (ibase out) (irs out) x y = px out x y 0).
    { rewrite px_gray by assumption. unfold at_ptr. rewrite u32_small by nia. unfold padd. cbn [fst snd]. f_equal. lia. }
    rewrite Eo. generalize (exact_x A xs c s x y) (exact_y A ys c s x y). intros ex ey.
    destruct (beyond (fint A ex) w) eqn:B1; [reflexivity|]. destruct (beyond (fint A ey) h) eqn:B2; [reflexivity|]. cbn [orb].
    apply beyond_spec in B1; auto. apply beyond_spec in B2; auto.
    rewrite (u32_small (fint A ey * irs inp)) by nia. rewrite !px_gray by assumption.
    unfold padd. cbn [fst snd]. repeat (f_equal; [f_equal; lia|]; apply f_equal). 
    assert (G : forall p q r t p' q' r' t' (K : Z -> Z -> Z -> Z -> prog), p = p' -> q = q' -> r = r' -> t = t' ->
      PLoad p (fun a => PLoad q (fun b => PLoad r (fun c => PLoad t (fun d => K a b c d)))) =
      PLoad p' (fun a => PLoad q' (fun b => PLoad r' (fun c => PLoad t' (fun d => K a b c d))))) by (intros; subst; reflexivity).
    apply G; f_equal; lia. }
  assert (Hev : forall x y e, 0 <= x < w -> 0 <= y < h -> In e (events (get m) (k x y)) ->
     e = (px out x y 0, fun _ => rot_val m inp xs ys c s x y)).
  { intros x y e Hx Hy. rewrite Ek by assumption. unfold rot_val. cbv zeta. rewrite Ew, Eh. fold w h.
    destruct (_ || _); cbn [events In]; intros [<-|[]]; reflexivity. }
  assert (Hev' : forall x y, 0 <= x < w -> 0 <= y < h -> In (px out x y 0, fun _ => rot_val m inp xs ys c s x y) (events (get m) (k x y))).
  { intros x y Hx Hy. rewrite Ek by assumption. unfold rot_val. cbv zeta. rewrite Ew, Eh. fold w h.
    destruct (_ || _); cbn [events In]; left; reflexivity. }
  apply stores_run; auto.
  - intros x y _ _ H. apply in_range_out. exact H.
  - intros x y Hx Hy. pose proof (px_gray_inb m out x y Wo Co Hx Hy) as IO.
    assert (L : forall i j, 0 <= i < w -> 0 <= j < h -> inb m (px inp i j 0) = true /\ ~ others w h m k x y (px inp i j 0)).
    { intros i j Hi Hj. split; [apply px_gray_inb; auto; rewrite ?Ew, ?Eh; assumption|].
      intros (x' & y' & Hx' & Hy' & _ & Hq). apply in_map_iff in Hq as (e & E & H). apply Hev in H as ->; auto. cbn [fst] in E.
      apply (D i j 0 x' y' 0); unfold inside; rewrite ?C1, ?Co, ?Ew, ?Eh; fold w h; try lia. symmetry. exact E. }
    rewrite Ek by assumption. cbv zeta.
    destruct (beyond (fint A (exact_x A xs c s x y)) w) eqn:B1; [cbn [orb sound]; auto|].
    destruct (beyond (fint A (exact_y A ys c s x y)) h) eqn:B2; [cbn [orb sound]; auto|]. cbn [orb].
    apply beyond_spec in B1; auto. apply beyond_spec in B2; auto.
    cbn [sound]. do 4 (split; [apply L; lia|]; split; [apply L; lia|]). auto.
  - intros M HL HU HV. exists M. split; [reflexivity|]. split.
    + intros i j ch (Hi & Hj & Hc). rewrite Co in Hc. replace ch with 0 by lia. unfold pixel. rewrite !Z.add_0_l. apply HV.
      * exists i, j. eexists. split; [exact Hi|]. split; [exact Hj|]. split; [apply Hev'; assumption|reflexivity].
      * intros x' y' e Hx' Hy' H E a. apply Hev in H as ->; auto. cbn [fst snd] in *.
        apply (px_gray_inj m) in E as [-> ->]; auto.
    + split; [exact HL|]. intros q Hq. apply HU. intros x y e Hx Hy H E. apply Hev in H as ->; auto. cbn [fst] in E.
      apply (Hq x y 0); [unfold inside; rewrite Co; fold w h; lia|]. rewrite !Z.add_0_l. symmetry. exact E.
Qed.
End ANY.

(** ** C175: no access outside the images, the same result under every interleaving *)
Theorem C175_safe A d m inp cxi cyi out cxo cyo c s : int32_arith A -> device_ok d ->
  wf m inp -> wf m out -> icc inp = 1 -> icc out = 1 -> iw inp = iw out -> ih inp = ih out ->
  disjoint inp 0 0 (iw inp) (ih inp) out 0 0 (iw out) (ih out) ->
  exists val : Z -> Z -> Z,
    device_run (comfortable d (iw out) (ih out)) m (fun sch => cuda_Rotate A d sch m inp cxi cyi out cxo cyo c s)
      (fun M => writes (@Ok mem mem M) m out 0 0 (iw out) (ih out) (fun i j _ => val i j)).
Proof. intros. eexists. apply rotate_run; assumption. Qed.
Theorem C175_refusals A d sch m inp cxi cyi out cxo cyo c s :
  idata inp = None \/ idata out = None \/ iw inp <> iw out \/ ih inp <> ih out \/ icc inp <> 1 \/ icc out <> 1 ->
  cuda_Rotate A d sch m inp cxi cyi out cxo cyo c s = Throw m.
Proof.
  intros H. unfold cuda_Rotate. destruct (valid_pair inp out) eqn:V; [|reflexivity].
  destruct (is_gray inp && is_gray out) eqn:G; [|reflexivity]. exfalso.
  unfold is_gray, GRAY_SCALE in G. apply andb_prop in G as [G1 G2]. apply Z.eqb_eq in G1, G2.
  unfold valid_pair, iempty in V. apply negb_true_iff in V. apply orb_false_elim in V as [V E2]. apply orb_false_elim in V as [V E1].
  apply orb_false_elim in V as [V _]. apply orb_false_elim in V as [V _]. apply orb_false_elim in V as [V1 V2].
  apply negb_false_iff, Z.eqb_eq in E1, E2.
  destruct H as [H|[H|[H|[H|[H|H]]]]]; try congruence; rewrite H in *; discriminate.
Qed.
(** Integers with saturation. *)
Definition clamp (lo hi z : Z) : Z := Z.max lo (Z.min hi z).
Lemma clamp_range lo hi z : lo <= hi -> lo <= clamp lo hi z <= hi.
Proof. unfold clamp. lia. Qed.
Definition Zarith : farith := mkFarith Z (fun z => z) 0 Z.add Z.sub Z.mul Z.opp (clamp (-2147483648) 2147483647) (clamp 0 255).
Lemma Zarith_int32 : int32_arith Zarith.
Proof. intros t. pose proof (clamp_range (-2147483648) 2147483647 t). cbn. lia. Qed.
Example C175_case : (exists val : Z -> Z -> Z, device_run (comfortable gpu 5 4) emem
      (fun sch => cuda_Rotate Zarith gpu sch emem (img 1 5 4 1 8) 2 1 (img 2 5 4 1 5) 1 3 0 1)
      (fun M => writes (@Ok mem mem M) emem (img 2 5 4 1 5) 0 0 5 4 (fun i j _ => val i j))) /\ comfortable gpu 5 4 /\
  cuda_Rotate Zarith gpu [] emem (img 1 5 4 1 8) 2 1 (img 2 4 4 1 5) 1 3 0 1 = Throw emem.
Proof.
  split; [|split; [apply gpu_comfortable; lia|apply C175_refusals; cbn; lia]].
  refine (C175_safe Zarith gpu emem (img 1 5 4 1 8) 2 1 (img 2 5 4 1 5) 1 3 0 1 Zarith_int32 gpu_ok _ _ eq_refl eq_refl eq_refl eq_refl _);
    try solve_wf. solve_disjoint.
Qed.
Definition row4 (s : list nat) (o : Z) : option (list Z) :=
  match cuda_Rotate Zarith dev1 s emem (img 1 4 2 1 4) 1 0 (img o 4 2 1 4) 0 0 1 0 with
  | Ok M => Some (map (fun x => pixel M (img o 4 2 1 4) x 0 0) [0; 1; 2; 3])
  | _ => None
  end.
Example C175_case_run : row4 (flat_map (fun i => repeat i 6) (seq 0 8)) 2 = Some [48; 85; 0; 0].
Proof. vm_compute. reflexivity. Qed.
(** In place the call is accepted, but a pixel may be read before or after it is written. *)
Theorem C175_in_place_race : row4 (flat_map (fun i => repeat i 6) (seq 0 8)) 1 = Some [48; 85; 0; 0] /\
  row4 (flat_map (fun i => repeat i 6) (rev (seq 0 8))) 1 = Some [0; 0; 0; 0].
Proof. split; vm_compute; reflexivity. Qed.
Print Assumptions C175_safe.
Print Assumptions C175_refusals.
Print Assumptions C175_in_place_race.

(** ** C176: the values, in exact arithmetic *)
Definition Rarith : farith := mkFarith R IZR (/ 2)%R Rplus Rminus Rmult Ropp
  (fun r => clamp (-2147483648) 2147483647 (Ztrunc r)) (fun r => clamp 0 255 (Ztrunc r)).
Lemma Rarith_int32 : int32_arith Rarith.
Proof. intros t. pose proof (clamp_range (-2147483648) 2147483647 (Ztrunc t)). cbn [fint Rarith]. lia. Qed.

(** Position in the input that belongs to pixel (x, y) of the output: rotate around the centre
    of the output, move to the centre of the input. *)
Definition back_x (c s cxi cxo cyo : R) (x y : Z) : R := (c * (IZR x - cxo) + s * (IZR y - cyo) + cxi)%R.
Definition back_y (c s cyi cxo cyo : R) (x y : Z) : R := (- s * (IZR x - cxo) + c * (IZR y - cyo) + cyi)%R.

Definition C176_claim : Prop := forall d m inp out (cxi cyi cxo cyo c s : R), device_ok d ->
  wf m inp -> wf m out -> icc inp = 1 -> icc out = 1 -> iw inp = iw out -> ih inp = ih out -> bytes m inp ->
  disjoint inp 0 0 (iw inp) (ih inp) out 0 0 (iw out) (ih out) ->
  exists val : Z -> Z -> Z,
    device_run (comfortable d (iw out) (ih out)) m (fun sch => cuda_Rotate Rarith d sch m inp cxi cyi out cxo cyo c s)
      (fun M => writes (@Ok mem mem M) m out 0 0 (iw out) (ih out) (fun i j _ => val i j)) /\
    forall i j, 0 <= i < iw out -> 0 <= j < ih out ->
      sampled 0 m inp 0 0 (iw inp) (ih inp) (back_x c s cxi cxo cyo i j) (back_y c s cyi cxo cyo i j) (val i j).

(** One coordinate: what the truncated and saturated position says. *)
Lemma trunc_neg u : (u <= -1)%R -> Ztrunc u <= -1.
Proof. intros H. rewrite Ztrunc_ceil by lra. apply Zceil_glb. exact H. Qed.
Lemma coord_in u n : ~ (-1 < u < 0)%R -> 0 < n < 2147483648 -> beyond (clamp (-2147483648) 2147483647 (Ztrunc u)) n = false ->
  (0 <= u)%R /\ clamp (-2147483648) 2147483647 (Ztrunc u) = Zfloor u /\ 0 <= Zfloor u /\ Zfloor u + 1 < n.
Proof.
  intros Hu Hn B. pose proof W32_val. apply beyond_spec in B; [|pose proof (clamp_range (-2147483648) 2147483647 (Ztrunc u)); lia|lia].
  destruct (Rle_lt_dec 0 u) as [Hp|Hneg].
  - rewrite (Ztrunc_floor u Hp) in *. split; [exact Hp|]. unfold clamp in *. lia.
  - exfalso. assert (Ztrunc u <= -1) by (apply trunc_neg; lra). unfold clamp in B. lia.
Qed.
Lemma coord_out u n : 0 < n < 2147483648 -> beyond (clamp (-2147483648) 2147483647 (Ztrunc u)) n = true ->
  ~ (0 <= Zfloor u /\ Zfloor u + 1 < n).
Proof.
  intros Hn B [H1 H2]. pose proof W32_val. apply beyond_spec' in B; [|pose proof (clamp_range (-2147483648) 2147483647 (Ztrunc u)); lia|lia].
  assert (0 <= u)%R by (apply IZR_le in H1; pose proof (Zfloor_lb u); lra).
  rewrite (Ztrunc_floor u) in B by assumption. unfold clamp in B. lia.
Qed.
Lemma row_out v : beyond (clamp (-2147483648) 2147483647 (Ztrunc v)) 1 = true.
Proof.
  destruct (beyond _ 1) eqn:B; [reflexivity|]. pose proof W32_val.
  apply beyond_spec in B; [lia|pose proof (clamp_range (-2147483648) 2147483647 (Ztrunc v)); lia|lia].
Qed.

Lemma rounded_byte b : (0 <= b <= 255)%R ->
  0 <= clamp 0 255 (Ztrunc (b + / 2)) <= 255 /\ (Rabs (IZR (clamp 0 255 (Ztrunc (b + / 2))) - b) <= / 2 + 0)%R.
Proof.
  intros Hb. rewrite Ztrunc_floor by lra.
  assert (H0 : 0 <= Zfloor (b + / 2) <= 255).
  { split; [apply Zfloor_lub; simpl; lra|]. apply Z.lt_succ_r. apply lt_IZR. pose proof (Zfloor_lb (b + / 2)). simpl Z.succ. lra. }
  replace (clamp 0 255 (Zfloor (b + / 2))) with (Zfloor (b + / 2)) by (unfold clamp; lia). split; [exact H0|].
  pose proof (Zfloor_lb (b + / 2)). pose proof (Zfloor_ub (b + / 2)). apply Rabs_le. lra.
Qed.

Lemma mix_range m im x y f g : bytes m im -> icc im = 1 -> 0 <= x -> x + 1 < iw im -> 0 <= y -> y + 1 < ih im ->
  (0 <= f < 1)%R -> (0 <= g < 1)%R -> (0 <= mix m im x y f g <= 255)%R.
Proof.
  intros B C Hx Hx' Hy Hy' Hf Hg.
  assert (P : forall a b, 0 <= a < iw im -> 0 <= b < ih im -> (0 <= IZR (pixel m im a b 0) <= 255)%R).
  { intros a b Ha Hb. destruct (B a b 0 Ha Hb) as [B1 B2]; [rewrite C; lia|]. split; apply IZR_le; lia. }
  unfold mix. pose proof (P x y ltac:(lia) ltac:(lia)) as P1. pose proof (P (x + 1) y ltac:(lia) ltac:(lia)) as P2.
  pose proof (P x (y + 1) ltac:(lia) ltac:(lia)) as P3. pose proof (P (x + 1) (y + 1) ltac:(lia) ltac:(lia)) as P4.
  generalize dependent (IZR (pixel m im x y 0)). generalize dependent (IZR (pixel m im (x + 1) y 0)).
  generalize dependent (IZR (pixel m im x (y + 1) 0)). generalize dependent (IZR (pixel m im (x + 1) (y + 1) 0)).
  intros p4 P4 p3 P3 p2 P2 p1 P1.
  assert (W1 : (0 <= (1 - f) * (1 - g))%R) by (apply Rmult_le_pos; lra). assert (W2 : (0 <= f * (1 - g))%R) by (apply Rmult_le_pos; lra).
  assert (W3 : (0 <= (1 - f) * g)%R) by (apply Rmult_le_pos; lra). assert (W4 : (0 <= f * g)%R) by (apply Rmult_le_pos; lra).

  assert (T : forall k p, (0 <= k)%R -> (0 <= p <= 255)%R -> (0 <= k * p <= k * 255)%R).
  { intros k p Hk Hp. split; [apply Rmult_le_pos; lra|apply Rmult_le_compat_l; lra]. }
  pose proof (T _ p1 W1 P1). pose proof (T _ p2 W2 P2). pose proof (T _ p3 W3 P3). pose proof (T _ p4 W4 P4).
  split; [lra|]. assert (((1 - f) * (1 - g) * 255 + f * (1 - g) * 255 + (1 - f) * g * 255 + f * g * 255 = 255)%R) by ring.
  lra.
Qed.

(** Positions with a coordinate between -1 and 0, exclusive, are left out. *)
Theorem C176_rotate_partial d m inp out (cxi cyi cxo cyo c s : R) : device_ok d ->
  wf m inp -> wf m out -> icc inp = 1 -> icc out = 1 -> iw inp = iw out -> ih inp = ih out -> bytes m inp ->
  disjoint inp 0 0 (iw inp) (ih inp) out 0 0 (iw out) (ih out) ->
  exists val : Z -> Z -> Z,
    device_run (comfortable d (iw out) (ih out)) m (fun sch => cuda_Rotate Rarith d sch m inp cxi cyi out cxo cyo c s)
      (fun M => writes (@Ok mem mem M) m out 0 0 (iw out) (ih out) (fun i j _ => val i j)) /\
    forall i j, 0 <= i < iw out -> 0 <= j < ih out ->
      ~ (-1 < back_x c s cxi cxo cyo i j < 0)%R -> ~ (-1 < back_y c s cyi cxo cyo i j < 0)%R ->
      sampled 0 m inp 0 0 (iw inp) (ih inp) (back_x c s cxi cxo cyo i j) (back_y c s cyi cxo cyo i j) (val i j).
Proof.
  intros Hd W1 Wo C1 Co Ew Eh B D. eexists. split.
  { apply (rotate_run Rarith d m inp cxi cyi out cxo cyo c s Rarith_int32); assumption. }
  intros i j Hi Hj Hu Hv. pose proof W1 as [_ Ww Wh _ Wr Ws _ _]. rewrite C1, Z.mul_1_r in Wr. rewrite <- Ew in Hi. rewrite <- Eh in Hj.
  unfold rot_val. cbv zeta.
  match goal with |- sampled _ _ _ _ _ _ _ ?u ?v (if beyond (fint Rarith ?u') _ || beyond (fint Rarith ?v') _ then _ else _) =>
    replace u' with u by (unfold exact_x, back_x; cbn [fadd fopp fmul fofZ fsub Rarith]; ring);
    replace v' with v by (unfold exact_y, back_y; cbn [fadd fopp fmul fofZ fsub Rarith]; ring) end.
  revert Hu Hv. generalize (back_x c s cxi cxo cyo i j) (back_y c s cyi cxo cyo i j). intros u v Hu Hv.
  cbn [fint Rarith]. unfold sampled, surrounded. pose proof W32_val.
  destruct (Z.eq_dec (ih inp) 1) as [E1|N1].
  { rewrite E1, row_out, orb_true_r. split; [intros; lia|reflexivity]. }
  destruct (Z.eq_dec (iw inp) 1) as [E2|N2].
  { rewrite E2, row_out. split; [intros; lia|reflexivity]. }
  assert (Sw : 0 < iw inp < 2147483648) by nia. assert (Sh : 0 < ih inp < 2147483648) by nia.
  destruct (beyond (clamp (-2147483648) 2147483647 (Ztrunc u)) (iw inp)) eqn:Bx.
  { apply coord_out in Bx; [|exact Sw]. cbn [orb]. split; [intros [? _]; exfalso; apply Bx; lia|reflexivity]. }
  destruct (beyond (clamp (-2147483648) 2147483647 (Ztrunc v)) (ih inp)) eqn:By.
  { apply coord_out in By; [|exact Sh]. cbn [orb]. split; [intros [_ ?]; exfalso; apply By; lia|reflexivity]. }
  apply coord_in in Bx as (Pu & -> & U1 & U2); [|exact Hu|exact Sw]. apply coord_in in By as (Pv & -> & V1 & V2); [|exact Hv|exact Sh].
  cbn [orb]. split; [intros _|intros N; exfalso; apply N; lia].
  match goal with |- context [fbyte Rarith ?t] => replace t with (bilinear m inp u v + / 2)%R end.
  2:{ unfold bilinear, mix, mean4. cbn [fadd fopp fmul fofZ fsub fhalf Rarith]. ring. }
  cbn [fbyte Rarith]. apply rounded_byte. pose proof (Zfloor_lb u). pose proof (Zfloor_ub u). pose proof (Zfloor_lb v). pose proof (Zfloor_ub v).
  apply mix_range; auto; lra.
Qed.
(** A quarter turn. *)
Example C176_case : (exists val : Z -> Z -> Z, device_run (comfortable gpu 5 4) emem
      (fun sch => cuda_Rotate Rarith gpu sch emem (img 1 5 4 1 8) 2%R 1%R (img 2 5 4 1 5) 2%R (3 / 2)%R 0%R 1%R)
      (fun M => writes (@Ok mem mem M) emem (img 2 5 4 1 5) 0 0 5 4 (fun i j _ => val i j)) /\
    forall i j, 0 <= i < 5 -> 0 <= j < 4 ->
      ~ (-1 < back_x 0 1 2 2 (3 / 2) i j < 0)%R -> ~ (-1 < back_y 0 1 1 2 (3 / 2) i j < 0)%R ->
      sampled 0 emem (img 1 5 4 1 8) 0 0 5 4 (back_x 0 1 2 2 (3 / 2) i j) (back_y 0 1 1 2 (3 / 2) i j) (val i j)) /\
  comfortable gpu 5 4.
Proof.
  split; [|apply gpu_comfortable; lia].
  refine (C176_rotate_partial gpu emem (img 1 5 4 1 8) (img 2 5 4 1 5) 2 1 2 (3 / 2) 0 1 gpu_ok _ _ eq_refl eq_refl eq_refl eq_refl _ _);
    try solve_wf; [apply emem_bytes|solve_disjoint].
Qed.

(** Two results of one call. *)
Lemma run_both {B} (fits : Prop) m (call : list nat -> res mem B) (Q Q' : B -> Prop) :
  fits -> device_run fits m call Q -> device_run fits m call Q' -> exists a, Q a /\ Q' a.
Proof.
  intros K [(n & R1 & K1 & R2)|[NK _]]; [|contradiction]. intros [(n' & R1' & _)|[NK _]]; [|contradiction].
  set (s := flat_map (fun i => repeat i K1) (seq 0 n)).
  assert (Hs : forall i, (i < n)%nat -> (K1 <= count_occ Nat.eq_dec s i)%nat).
  { intros i Hi. unfold s. assert (G : forall a l, (a <= i < a + l)%nat ->
      (K1 <= count_occ Nat.eq_dec (flat_map (fun i => repeat i K1) (seq a l)) i)%nat).
    { intros a l. revert a. induction l as [|l IH]; intros a Ha; [lia|]. cbn [seq flat_map].
      rewrite count_occ_app. destruct (Nat.eq_dec a i) as [->|Hne].
      - rewrite count_occ_repeat_eq by reflexivity. lia.
      - specialize (IH (S a)). lia. }
    apply G. lia. }
  specialize (R2 s Hs). destruct (R1 s) as [E|(r & E & T)]; [contradiction|].
  destruct (R1' s) as [E'|(r' & E' & T')]; [rewrite E in E'; discriminate|].
  rewrite E in E'. injection E' as <-. exists r. split; assumption.
Qed.

(** Everywhere 100, moved by half a pixel: the first column lies outside the image and should
    be black, but is 100. *)
Definition hundred : mem := fun b => mkBlock 64 (fun _ => 100).
Theorem C176_left_border_refuted : ~ C176_claim.
Proof.
  intros H. set (inp := img 1 4 4 1 4). set (out := img 2 4 4 1 4).
  assert (W1 : wf hundred inp) by solve_wf. assert (Wo : wf hundred out) by solve_wf.
  assert (D : disjoint inp 0 0 (iw inp) (ih inp) out 0 0 (iw out) (ih out)) by solve_disjoint.
  assert (B : bytes hundred inp) by (intros x y ch _ _ _; cbn; lia).
  destruct (H gpu hundred inp out (- / 2)%R 0%R 0%R 0%R 1%R 0%R gpu_ok W1 Wo eq_refl eq_refl eq_refl eq_refl B D) as (val & R & V).
  pose proof (rotate_run Rarith gpu hundred inp (- / 2)%R 0%R out 0%R 0%R 1%R 0%R Rarith_int32 gpu_ok W1 Wo eq_refl eq_refl eq_refl eq_refl D) as R'.
  cbv zeta in R'. assert (K : comfortable gpu (iw out) (ih out)) by (subst out; cbn [img iw ih]; apply gpu_comfortable; lia).
  destruct (run_both _ _ _ _ _ K R R') as (M & (m1 & E1 & P1 & _) & (m2 & E2 & P2 & _)).
  injection E1 as <-. injection E2 as <-.
  assert (I0 : inside (iw out) (ih out) (icc out) 0 0 0) by (cbn; unfold inside; lia).
  specialize (P1 0 0 0 I0). specialize (P2 0 0 0 I0). rewrite P1 in P2. clear P1 R R' H.
  destruct (V 0 0) as [_ V0]; [cbn; lia|cbn; lia|]. rewrite V0 in P2.
  - revert P2. unfold rot_val. cbv zeta.
    match goal with |- context [beyond (fint Rarith ?u') _ || beyond (fint Rarith ?v') _] =>
      replace u' with (- / 2)%R by (unfold exact_x; cbn [fadd fopp fmul fofZ fsub Rarith]; ring);
      replace v' with 0%R by (unfold exact_y; cbn [fadd fopp fmul fofZ fsub Rarith]; ring) end.
    cbn [fint Rarith].
    replace (Ztrunc (- / 2)) with 0 by (symmetry; rewrite Ztrunc_ceil by lra; apply Zceil_imp; simpl; lra).
    replace (Ztrunc 0) with 0 by (symmetry; apply (Ztrunc_IZR 0)).
    change (clamp (-2147483648) 2147483647 0) with 0.
    change (beyond 0 (iw inp) || beyond 0 (ih inp)) with false. cbv iota.
    change (pixel hundred inp 0 0 0) with 100. change (pixel hundred inp (0 + 1) 0 0) with 100.
    change (pixel hundred inp 0 (0 + 1) 0) with 100. change (pixel hundred inp (0 + 1) (0 + 1) 0) with 100.
    match goal with |- context [fbyte Rarith ?t] => replace t with (100 + / 2)%R
      by (unfold mean4; cbn [fadd fopp fmul fofZ fsub fhalf Rarith]; field) end.
    cbn [fbyte Rarith]. destruct (rounded_byte 100) as [_ Hr]; [lra|]. intros E. rewrite <- E in Hr.
    apply Rabs_le_inv in Hr. lra.
  - intros ((S & _) & _). revert S. unfold back_x.
    replace (1 * (IZR 0 - 0) + 0 * (IZR 0 - 0) + - / 2)%R with (- / 2)%R by ring.
    replace (Zfloor (- / 2)) with (-1); [lia|]. symmetry. apply Zfloor_imp. simpl. lra.
Qed.
Print Assumptions C176_rotate_partial.
Print Assumptions C176_left_border_refuted.
