(** Properties C72, C97 and C98: the Hough transform. *)
From Coq Require Import ZArith List Bool Lia Reals Lra Permutation.
From Verif Require Import Base BaseProofs Double Edge Filter Arith Math HaarProofs HoughProofs GaussExact HoughExact HoughFloat NumProofs.
From Coq Require Import Floats.SpecFloat.
Import ListNotations.
Open Scope Z_scope.

(** ** C72 *)

(** For every number type and every C library: when the call returns, it reports false for
    fewer than two points and leaves the output vectors; otherwise the output vectors are the
    points whose distance lies within the tolerance of a line, and the other points, both in
    the order of the input. *)
Theorem C72_partition A L input a0 tol step line on0 off0 b on off :
  runHoughTransform A L input a0 tol step line on0 off0 = Ok (b, on, off) ->
  ((length input < 2)%nat /\ b = false /\ on = on0 /\ off = off0) \/
  ((2 <= length input)%nat /\ b = true /\ exists angle middle,
     let width := if alt A line (lmin_tol L) then lmin_tol L else line in
     let distance p := aadd A (amul A (fst p) (lsin L angle)) (amul A (snd p) (lcos L angle)) in
     let outside p := alt A (distance p) (asub A middle width) || alt A (aadd A middle width) (distance p) in
     on = filter (fun p => negb (outside p)) input /\ off = filter outside input).
Proof.
  unfold runHoughTransform. destruct (Z.ltb_spec (Z.of_nat (length input)) 2) as [h|h]; intros E.
  - injection E as <- <- <-. left. split; [lia|auto].
  - right. split; [lia|]. destruct (lsteps L _ _) as [n|]; [|discriminate E].
    destruct (search _ _ _ _ _ _ _) as [[[bid hi] avg]| | |]; cbn [bind] in E; try discriminate E.
    rewrite partition_filter in E. cbn [app fst snd] in E. injection E as <- <- <-. split; [reflexivity|].
    eexists _, avg. cbv zeta. split; reflexivity.
Qed.

(** Exact arithmetic: the call returns, the line is one of the lines asked for, and no set of
    points that fits into a strip of twice the tolerance along any of them is larger. *)
Theorem C72_exact sort input a0 tol step line on0 off0 :
  sorts sort -> 2 <= Z.of_nat (length input) < 2 ^ 64 ->
  let smallest := (1 / 1000 * PI / 180)%R in
  let step' := Rmax step smallest in
  let tol' := Rmax (Rmax tol smallest) step' in
  let width := Rmax line (1 / 100000) in
  (tol' / step' + / 2 < IZR 2147483647)%R ->
  exists n id middle on off,
    runHoughTransform exact (exact_lib sort) input a0 tol step line on0 off0 = Ok (true, on, off) /\
    (IZR n <= tol' / step' + / 2 < IZR n + 1)%R /\ - n <= id <= n /\
    (exists near, (forall p, near p = true <-> (Rabs (dist (- (a0 + step' * IZR id)) p - middle) <= width)%R) /\
       on = filter near input /\ off = filter (fun p => negb (near p)) input) /\
    forall id' f, - n <= id' <= n ->
      (forall p q, In p input -> In q input -> f p = true -> f q = true ->
         (Rabs (dist (- (a0 + step' * IZR id')) p - dist (- (a0 + step' * IZR id')) q) <= 2 * width)%R) ->
      (length (filter f input) <= length on)%nat.
Proof.
  intros Hs Hlen smallest step' tol' width Hmax.
  assert (Hsm : (0 < smallest)%R) by (unfold smallest; pose proof PI_RGT_0; lra).
  assert (Hst : (0 < step')%R) by (apply Rlt_le_trans with (1 := Hsm); apply Rmax_r).
  assert (Hto : (step' <= tol')%R) by apply Rmax_r.
  set (n := (up (tol' / step' + / 2) - 1)%Z).
  assert (Hq : (1 <= tol' / step')%R) by (apply Rmult_le_reg_r with step'; [exact Hst|]; unfold Rdiv; rewrite Rmult_assoc, Rinv_l by lra; lra).
  destruct (archimed (tol' / step' + / 2)) as (A1 & A2).
  assert (Hf : (IZR n <= tol' / step' + / 2 < IZR n + 1)%R) by (unfold n; rewrite minus_IZR; lra).
  assert (Hn0 : 0 <= n) by (apply le_IZR; apply Rnot_lt_le; intros K; assert (n <= -1) as K'%IZR_le by (apply lt_IZR in K; lia); lra).
  assert (Hn1 : n < INT_MAX) by (apply lt_IZR; apply Rle_lt_trans with (1 := proj1 Hf); exact Hmax).
  assert (Es : exact_steps tol' step' = Some n).
  { unfold exact_steps. fold n. replace ((0 <=? n) && in_int n) with true; [reflexivity|].
    unfold in_int. change INT_MAX with 2147483647 in *. lia. }
  destruct (hough_exact sort Hs input a0 tol step line on0 off0 n Hlen Es (conj Hn0 Hn1)) as (id & avg & on & off & E & Hid & Eon & Eoff & Opt).
  exists n, id, avg, on, off. split; [exact E|]. split; [exact Hf|]. split; [exact Hid|]. split.
  - eexists. split; [|split; [exact Eon|]].
    + intros p. cbv beta. fold step'. change (Rmax line (lmin_tol (exact_lib sort))) with width.
      set (d := dist (- (a0 + step' * IZR id)) p). change (Rmax step (lmin_angle (exact_lib sort))) with step'. fold d.
      rewrite negb_true_iff, orb_false_iff. split.
      * intros [B1 B2]. apply Rltb_false in B1, B2. apply Rabs_le. lra.
      * intros B. unfold Rabs in B; destruct (Rcase_abs _) in B; unfold Rltb;
          split; destruct (Rlt_dec _ _); auto; exfalso; lra.
    + rewrite Eoff. apply filter_ext. intros p. rewrite negb_involutive. reflexivity.
  - intros id' f Hid' Hf'. apply (Opt id' f Hid'). intros p q Hp Hq' Fp Fq.
    change (Rmax step (lmin_angle (exact_lib sort))) with step'. change (Rmax line (lmin_tol (exact_lib sort))) with width.
    pose proof (Hf' p q Hp Hq' Fp Fq) as B.
    unfold Rabs in B; destruct (Rcase_abs _) in B; lra.
Qed.

(** A sorting function, to show that the hypotheses can be met. *)
Fixpoint rinsert (x : R) (l : list R) : list R :=
  match l with [] => [x] | y :: l' => if Rle_dec x y then x :: l else y :: rinsert x l' end.
Fixpoint rsort (l : list R) : list R := match l with [] => [] | x :: l => rinsert x (rsort l) end.
Lemma rinsert_perm x l : Permutation (x :: l) (rinsert x l).
Proof. induction l as [|y l IH]; cbn; auto. destruct (Rle_dec x y); auto. rewrite perm_swap. constructor. exact IH. Qed.
Lemma sorted_cons x l : sortedR l -> (forall y, In y l -> (x <= y)%R) -> sortedR (x :: l).
Proof.
  intros S H [|i] [|j] Hij Hj; cbn [nth length] in *; try lra; try lia.
  - apply H, nth_In. lia.
  - apply S; lia.
Qed.
Lemma sorted_inv x l : sortedR (x :: l) -> sortedR l /\ forall y, In y l -> (x <= y)%R.
Proof.
  intros S. split.
  - intros i j Hij Hj. apply (S (Datatypes.S i) (Datatypes.S j)); cbn; lia.
  - intros y Hy. apply (In_nth _ _ 0%R) in Hy as (k & Hk & <-). apply (S O (Datatypes.S k)); cbn; lia.
Qed.
Lemma rinsert_sorted x l : sortedR l -> sortedR (rinsert x l).
Proof.
  induction l as [|y l IH]; intros S; cbn.
  - apply sorted_cons; [exact S|]. intros y [].
  - apply sorted_inv in S as [S H]. destruct (Rle_dec x y).
    + apply sorted_cons; [apply sorted_cons; auto|]. intros z [->|Hz]; [assumption|]. specialize (H z Hz). lra.
    + apply sorted_cons; [auto|]. intros z Hz. apply (Permutation_in z (Permutation_sym (rinsert_perm x l))) in Hz.
      destruct Hz as [->|Hz]; [lra|auto].
Qed.
Lemma rsort_sorts : sorts (fun l => Ok (rsort l)).
Proof.
  intros l. exists (rsort l). split; [reflexivity|]. split.
  - induction l as [|x l IH]; cbn; auto. rewrite IH at 1. apply rinsert_perm.
  - induction l as [|x l IH]; cbn; [intros i j _ Hj; cbn in Hj; lia|]. apply rinsert_sorted, IH.
Qed.
(** Points at height 1, 1 and 7, lines within 1 radian of the horizontal. *)
Example C72_case : exists on off,
  runHoughTransform exact (exact_lib (fun l => Ok (rsort l))) [(0, 1); (5, 1); (3, 7)]%R 0%R 1%R 1%R (1 / 10)%R [] [] = Ok (true, on, off) /\
  (2 <= length on)%nat.
Proof.
  assert (M : Rmax 1 (1 / 1000 * PI / 180) = 1%R) by (apply Rmax_left; pose proof PI_4; lra).
  assert (Hlen : 2 <= Z.of_nat (@length (R * R) [(0, 1); (5, 1); (3, 7)]%R) < 2 ^ 64) by (cbn; lia).
  pose proof (C72_exact (fun l => Ok (rsort l)) [(0, 1); (5, 1); (3, 7)]%R 0%R 1%R 1%R (1 / 10)%R [] [] rsort_sorts Hlen) as T.
  cbv zeta in T. rewrite !M in T. rewrite (Rmax_left 1 1) in T by lra. rewrite (Rmax_left (1 / 10)) in T by lra.
  destruct T as (n & id & mid & on & off & E & Hn & _ & _ & Opt); [lra|].
  exists on, off. split; [exact E|].
  assert (N0 : 0 <= n) by (apply le_IZR; apply Rnot_lt_le; intros K; assert (n <= -1) as K'%IZR_le by (apply lt_IZR in K; lia); lra).
  pose proof (Opt 0 (fun p => Rltb (snd p) 2) ltac:(lia)) as O.
  assert (Ea : (- (0 + 1 * IZR 0))%R = 0%R) by (cbn; lra).
  assert (D : forall x y : R, dist (- (0 + 1 * IZR 0)) (x, y) = y) by (intros; rewrite Ea; unfold dist; cbn [fst snd]; rewrite sin_0, cos_0; ring).
  cbn [filter snd] in O. unfold Rltb in O. destruct (Rlt_dec 1 2); [|lra]. destruct (Rlt_dec 7 2); [lra|]. apply O.
  intros p q [<-|[<-|[<-|[]]]] [<-|[<-|[<-|[]]]]; rewrite !D; cbn [snd];
    repeat (destruct (Rlt_dec _ _); try discriminate); intros; try lra; unfold Rabs; destruct (Rcase_abs _); lra.
Qed.
Print Assumptions C72_partition.
Print Assumptions C72_exact.

(** ** C97 *)

Definition finite (x : num) : Prop := match x with S754_nan | S754_infinity _ => False | _ => True end.
(** Every call with finite numbers as parameters returns. *)
Definition C97_claim : Prop := forall cos sin sort input a0 tol step line on0 off0,
  (forall l, exists l', sort l = Ok l') -> finite a0 -> finite tol -> finite step -> finite line ->
  exists r, runHoughTransform (ieee DOUBLE) (ieee_lib DOUBLE cos sin sort) input a0 tol step line on0 off0 = Ok r.
(** Two points, tolerance 10^6, step 0: the number of steps does not fit an int. *)
Theorem C97_claim_refuted : ~ C97_claim.
Proof.
  intros C. set (z := tofZ DOUBLE 0).
  destruct (C (fun _ => z) (fun _ => z) (fun l => Ok l) [(z, z); (z, z)] z (tofZ DOUBLE 1000000) z z [] []) as (r & E); try exact I; [eauto|].
  vm_compute in E. discriminate E.
Qed.
(** It returns, for float and double, for all points and a C library that returns numbers of
    the type (infinities and NaN among them), whenever the number of steps fits an int and is
    not INT_MAX. *)
Theorem C97_returns_partial T cos sin sort input a0 tol step line on0 off0 n : real_type T ->
  (forall x, valid (fst T) (snd T) (cos x)) -> (forall x, valid (fst T) (snd T) (sin x)) ->
  (forall l, exists l', sort l = Ok l' /\ Permutation l l') ->
  2 <= Z.of_nat (length input) < 2 ^ 64 ->
  (forall p, In p input -> valid (fst T) (snd T) (fst p) /\ valid (fst T) (snd T) (snd p)) -> valid (fst T) (snd T) line ->
  let low := tcast T min_angle_f in
  let step' := if SFltb step low then low else step in
  let tol' := if SFltb tol low then low else tol in
  ieee_steps T (if SFltb tol' step' then step' else tol') step' = Some n -> 0 <= n < 2147483647 ->
  exists on off, runHoughTransform (ieee T) (ieee_lib T cos sin sort) input a0 tol step line on0 off0 = Ok (true, on, off).
Proof. intros HT Hc Hs Ho Hl Hp Hv. exact (hough_returns T HT cos sin sort Hc Hs Ho input a0 tol step line on0 off0 n Hl Hp Hv). Qed.
Lemma valid_int z : Z.abs z <= 2 ^ 24 -> valid 24 128 (tofZ FLOAT z).
Proof. intros H. destruct (isT_ofZ 24 128 ltac:(lia) ltac:(lia) ltac:(lia) z) as (b & E & _); [lia|]. exists b. exact E. Qed.
Example C97_case : exists on off,
  runHoughTransform (ieee FLOAT) (ieee_lib FLOAT (fun _ => tofZ FLOAT 1) (fun _ => tofZ FLOAT 0) (fun l => Ok l))
    [(tofZ FLOAT 3, tofZ FLOAT 4); (tofZ FLOAT 5, tofZ FLOAT 6)] (tofZ FLOAT 0) (tofZ FLOAT 2) (tofZ FLOAT 1) (tofZ FLOAT 1) [] [] = Ok (true, on, off).
Proof.
  apply (C97_returns_partial FLOAT) with (n := 2).
  - left. reflexivity.
  - intros _. apply valid_int. lia.
  - intros _. apply valid_int. lia.
  - intros l. exists l. split; [reflexivity|apply Permutation_refl].
  - cbn. lia.
  - intros p [<-|[<-|[]]]; split; apply valid_int; lia.
  - apply valid_int. lia.
  - vm_compute. reflexivity.
  - lia.
Qed.
Print Assumptions C97_claim_refuted.
Print Assumptions C97_returns_partial.

(** ** C98 *)

Definition sorted_f (l : list num) : Prop := forall i j, (i < j < length l)%nat -> SFltb (nth j l S754_nan) (nth i l S754_nan) = false.
(** The statement of C72_exact for float: the points on the line are at least as many as the
    largest set that fits into a strip along a line tried. *)
Definition C98_claim : Prop := forall cos sin sort input a0 tol step line on0 off0 on off n,
  (forall l l', sort l = Ok l' -> Permutation l l' /\ sorted_f l') ->
  SFltb step (tcast FLOAT min_angle_f) = false -> SFltb tol step = false -> SFltb line min_tol_f = false ->
  runHoughTransform (ieee FLOAT) (ieee_lib FLOAT cos sin sort) input a0 tol step line on0 off0 = Ok (true, on, off) ->
  ieee_steps FLOAT tol step = Some n ->
  forall id f, - n <= id <= n ->
    let angle := SFopp (tadd FLOAT a0 (tmul FLOAT step (tofZ FLOAT id))) in
    let distance p := tadd FLOAT (tmul FLOAT (fst p) (sin angle)) (tmul FLOAT (snd p) (cos angle)) in
    (forall p q, In p input -> In q input -> f p = true -> f q = true ->
       SFltb (tadd FLOAT (tmul FLOAT line (tofZ FLOAT 2)) (distance q)) (distance p) = false) ->
    (length (filter f input) <= length on)%nat.

(** (-1000, 256) and (1000, 256 + 2^-15), tolerance 2^-16, angles -0.5, 0 and 0.5, with the
    correctly rounded cosines and sines of these angles: the two points fit into the strip,
    but 256 + 2^-16, the upper end, is rounded to 256. *)
Definition cos98 (x : num) : num := match x with S754_zero _ => tofZ FLOAT 1 | _ => S754_finite false 14723392 (-24) end.
Definition sin98 (x : num) : num :=
  match x with S754_zero s => S754_zero s | S754_finite s _ _ => S754_finite s 16086852 (-25) | _ => S754_nan end.
Definition sort98 (l : list num) : res unit (list num) :=
  match l with
  | [] | [_] => Ok l
  | [a; b] => if SFltb b a then (if SFltb a b then UB else Ok [b; a]) else Ok l
  | _ => UB
  end.
Lemma sort98_sorts l l' : sort98 l = Ok l' -> Permutation l l' /\ sorted_f l'.
Proof.
  destruct l as [|a [|b [|c l]]]; cbn [sort98]; intros E; try discriminate E.
  - injection E as <-. split; [constructor|]. intros i j H. cbn in H. lia.
  - injection E as <-. split; [constructor; constructor|]. intros i j H. cbn in H. lia.
  - destruct (SFltb b a) eqn:E1; [destruct (SFltb a b) eqn:E2; [discriminate E|]|]; injection E as <-; (split; [auto using perm_swap|]);
      intros i j H; cbn in H; assert (i = O /\ j = 1%nat) as [-> ->] by lia; assumption.
Qed.
Definition p98 : list (num * num) :=
  [(tofZ FLOAT (-1000), tofZ FLOAT 256); (tofZ FLOAT 1000, tadd FLOAT (tofZ FLOAT 256) (S754_finite false 8388608 (-38)))].
Definition half98 : num := S754_finite false 8388608 (-24).
Definition tol98 : num := S754_finite false 8388608 (-39).
Theorem C98_claim_refuted : ~ C98_claim.
Proof.
  intros C. set (zero := S754_zero false).
  assert (F : match runHoughTransform (ieee FLOAT) (ieee_lib FLOAT cos98 sin98 sort98) p98 zero half98 half98 tol98 [] [] with
              | Ok (true, on, off) => (length on =? 1)%nat && (length off =? 1)%nat | _ => false end = true) by (vm_compute; reflexivity).
  destruct (runHoughTransform (ieee FLOAT) (ieee_lib FLOAT cos98 sin98 sort98) p98 zero half98 half98 tol98 [] [])
    as [[[[|] on] off]| | |] eqn:E; try discriminate F.
  apply andb_true_iff in F as [F _]. apply Nat.eqb_eq in F.
  assert (H1 : SFltb half98 (tcast FLOAT min_angle_f) = false) by (vm_compute; reflexivity).
  assert (H2 : SFltb half98 half98 = false) by (vm_compute; reflexivity).
  assert (H3 : SFltb tol98 min_tol_f = false) by (vm_compute; reflexivity).
  assert (H4 : ieee_steps FLOAT half98 half98 = Some 1) by (vm_compute; reflexivity).
  assert (H5 : - (1) <= 0 <= 1) by lia.
  pose proof (C cos98 sin98 sort98 p98 zero half98 half98 tol98 [] [] on off 1 sort98_sorts H1 H2 H3 E H4 0 (fun _ => true) H5) as K.
  cbv zeta in K. rewrite F in K. change (length (filter (fun _ : num * num => true) p98)) with 2%nat in K.
  assert (2 <= 1)%nat; [apply K|lia].
  intros p q [<-|[<-|[]]] [<-|[<-|[]]] _ _; vm_compute; reflexivity.
Qed.
Print Assumptions C98_claim_refuted.
