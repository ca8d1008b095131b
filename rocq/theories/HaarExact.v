(** The Haar transforms in exact arithmetic and the error of the IEEE types. *)
From Coq Require Import ZArith List Bool Lia Reals Lra.
From Verif Require Import Base BaseProofs ImgFun Double Edge NumProofs Filter MagProofs Arith Math HaarProofs.
From Coq Require Import Floats.SpecFloat.
From Flocq Require Import Core.
Open Scope Z_scope.
Ltac Zify.zify_post_hook ::= Z.div_mod_to_equations.

(** ** Exact arithmetic *)

Notation line_D c := (line_direct exact c).
Notation line_I c := (line_inverse exact c).

Lemma haar_exact c (v : Z -> Z -> R) w h x y : w mod 2 = 0 -> h mod 2 = 0 -> 0 <= x < w -> 0 <= y < h ->
  line_I c (h / 2) (fun y => line_I c (w / 2) (fun x => line_D c (h / 2) (fun y => line_D c (w / 2) (fun x => v x y) x) y) x) y
  = ((2 * c * c) * (2 * c * c) * v x y)%R.
Proof.
  intros Ew Eh Hx Hy.
  assert (Dl : forall n k (f : Z -> R), 0 <= k < n / 2 -> line_D c (n / 2) f k = ((f (2 * k + 1)%Z + f (2 * k)%Z) * c)%R).
  { intros n k f Hk. unfold line_direct, sum_of. replace (k <? n / 2) with true by lia. reflexivity. }
  assert (Dh : forall n k (f : Z -> R), 0 <= k < n / 2 -> line_D c (n / 2) f (k + n / 2) = ((f (2 * k + 1)%Z - f (2 * k)%Z) * c)%R).
  { intros n k f Hk. unfold line_direct, diff_of. replace (k + n / 2 <? n / 2) with false by lia.
    replace (k + n / 2 - n / 2) with k by lia. reflexivity. }
  assert (Ie : forall n k (f : Z -> R), line_I c (n / 2) f (2 * k) = ((f k - f (k + n / 2)%Z) * c)%R).
  { intros n k f. unfold line_inverse, even_of. replace (2 * k mod 2 =? 0) with true by lia.
    replace (2 * k / 2) with k by lia. reflexivity. }
  assert (Io : forall n k (f : Z -> R), line_I c (n / 2) f (2 * k + 1) = ((f k + f (k + n / 2)%Z) * c)%R).
  { intros n k f. unfold line_inverse, odd_of. replace ((2 * k + 1) mod 2 =? 0) with false by lia.
    replace ((2 * k + 1) / 2) with k by lia. reflexivity. }
  destruct (parity_split w x Ew Hx) as (a & Ha & Ex). destruct (parity_split h y Eh Hy) as (b & Hb & Ey).
  destruct Ex as [-> | ->]; destruct Ey as [-> | ->]; rewrite ?Ie, ?Io; rewrite ?Ie, ?Io; rewrite !Dl, !Dh by assumption;
    rewrite ?Dl, ?Dh by assumption; change (@eq (carrier exact)) with (@eq R); ring.
Qed.

(** ** IEEE types *)

Definition c2 : R := (1 / sqrt 2)%R.

Lemma c2_bounds : (0.70710678 <= c2 <= 0.707106782)%R.
Proof.
  unfold c2. pose proof (sqrt_lt_R0 2 ltac:(lra)) as P. pose proof (sqrt_sqrt 2 ltac:(lra)) as S.
  assert (B : (1.414213562 <= sqrt 2 <= 1.414213563)%R) by (split; nra).
  split; apply Rmult_le_reg_r with (sqrt 2); auto; unfold Rdiv; rewrite Rmult_assoc, Rinv_l by lra; lra.
Qed.
Lemma c2_square : (2 * c2 * c2 = 1)%R.
Proof.
  unfold c2. pose proof (sqrt_lt_R0 2 ltac:(lra)) as P. pose proof (sqrt_sqrt 2 ltac:(lra)) as S.
  replace (2 * (1 / sqrt 2) * (1 / sqrt 2))%R with (2 * (/ (sqrt 2 * sqrt 2)))%R by (field; lra). rewrite S. field.
Qed.

Definition near (T : ftype) (e : R) (x : num) (a : R) : Prop := exists r, isN T x r /\ (Rabs (r - a) <= e)%R.

(** The float 1 / sqrt 2 promoted to the type. *)
Lemma coefficient_value T : real_type T -> exists c, isN T (tcast T coefficient_f) c /\ (Rabs (c - c2) <= 0.000000015)%R /\ (0.7071067 <= c <= 0.7071068)%R.
Proof.
  intros HT.
  assert (E : coefficient_f = SpecFloat.S754_finite false 11863283 (-24)) by (vm_compute; reflexivity).
  assert (V : F2R (Float radix2 11863283 (-24)) = (11863283 / 16777216)%R).
  { unfold F2R. cbn [Fnum Fexp]. change (bpow radix2 (-24)) with (/ 16777216)%R. lra. }
  exists (11863283 / 16777216)%R. split; [|pose proof c2_bounds; split; [apply Rabs_le|]; lra].
  rewrite E, <- V. unfold tcast. pose proof (real_bounds T HT) as (B1 & B2 & B3).
  assert (G : generic_format radix2 (SpecFloat.fexp (fst T) (snd T)) (F2R (Float radix2 11863283 (-24)))).
  { destruct HT as [-> | ->]; apply formatT_F2R; simpl; lia. }
  unfold isN. rewrite <- (rndT_format (fst T) (snd T)) at 1 by (auto; lia).
  apply isT_normalize; try lia. rewrite rndT_format by (auto; lia).
  rewrite V, Rabs_pos_eq by lra. apply Rlt_le_trans with (bpow radix2 0); [simpl; lra|]. apply bpow_le. lia.
Qed.

(** One sum or difference times the coefficient. *)
Lemma near_step T k e m x y a b (sg : bool) : real_type T -> 1 <= k <= 30 -> (0 <= e)%R ->
  near T e x a -> near T e y b -> (Rabs a <= m)%R -> (Rabs b <= m)%R -> (2 * m + 2 * e <= bpow radix2 k)%R ->
  near T (1.4142136 * e + 1.7071068 * bpow radix2 (k - 24) + 0.00000003 * m)%R
    (tmul T ((if sg then tadd T else tsub T) y x) (tcast T coefficient_f)) (((if sg then Rplus else Rminus) b a) * c2)%R /\
  (Rabs (((if sg then Rplus else Rminus) b a) * c2) <= 1.4142136 * m)%R.
Proof.
  intros HT Hk He (r & Hr & Er) (s & Hs & Es) Ha Hb Hm.
  destruct (coefficient_value T HT) as (c & Hc & Ec & Bc). pose proof c2_bounds as B2.
  pose proof (real_bounds T HT) as (P1 & P2 & P3).
  set (d := (if sg then Rplus else Rminus) s r). set (d0 := (if sg then Rplus else Rminus) b a).
  apply Rabs_le_inv in Er, Es, Ha, Hb, Ec.
  assert (Hd : (Rabs d <= bpow radix2 k)%R) by (subst d; apply Rabs_le; destruct sg; lra).
  assert (Hdd : (Rabs (d - d0) <= 2 * e)%R) by (subst d d0; apply Rabs_le; destruct sg; lra).
  assert (Hd0 : (Rabs d0 <= 2 * m)%R) by (subst d0; apply Rabs_le; destruct sg; lra).
  assert (N1 : isN T ((if sg then tadd T else tsub T) y x) (rndN T d)).
  { destruct (rndT_bound (fst T) (snd T) ltac:(lia) d k ltac:(lia) Hd) as [_ K].
    destruct T as [p q]. subst d. destruct sg; [apply isT_add|apply isT_sub]; auto; simpl in *; lia. }
  assert (R1 : (Rabs (rndN T d) <= bpow radix2 k)%R).
  { destruct (rndT_bound (fst T) (snd T) ltac:(lia) d k ltac:(lia) Hd) as [K _]. exact K. }
  assert (Q : (Rabs (rndN T d * c) <= bpow radix2 k)%R).
  { rewrite Rabs_mult, (Rabs_pos_eq c) by lra. pose proof (Rabs_pos (rndN T d)). nra. }
  assert (P24 : (bpow radix2 (k - fst T) <= bpow radix2 (k - 24))%R).
  { apply bpow_le. destruct HT as [-> | ->]; simpl; lia. }
  pose proof (rndN_error T d k HT ltac:(lia) Hd) as E1. pose proof (rndN_error T _ k HT ltac:(lia) Q) as E2.
  assert (Z0 : (0 <= bpow radix2 (k - 24))%R) by (apply bpow_ge_0).
  split.
  - exists (rndN T (rndN T d * c)). split.
    + destruct (rndT_bound (fst T) (snd T) ltac:(lia) _ k ltac:(lia) Q) as [_ K].
      destruct T as [p q]. apply isT_mul; auto; simpl in *; lia.
    + set (u := rndN T d) in *. set (z := rndN T (u * c)) in *. set (B := bpow radix2 (k - 24)) in *.
      replace (z - d0 * c2)%R with ((z - u * c) + (u - d) * c + (d - d0) * c + d0 * (c - c2))%R by ring.
      assert (I1 : (Rabs ((u - d) * c) <= 0.7071068 * B)%R).
      { rewrite Rabs_mult, (Rabs_pos_eq c) by lra. pose proof (Rabs_pos (u - d)). nra. }
      assert (I2 : (Rabs ((d - d0) * c) <= 1.4142136 * e)%R).
      { rewrite Rabs_mult, (Rabs_pos_eq c) by lra. pose proof (Rabs_pos (d - d0)). nra. }
      assert (I3 : (Rabs (d0 * (c - c2)) <= 0.00000003 * m)%R).
      { rewrite Rabs_mult. pose proof (Rabs_pos d0). pose proof (Rabs_pos (c - c2)).
        assert (Rabs (c - c2) <= 0.000000015)%R by (apply Rabs_le; lra). nra. }
      pose proof (Rabs_triang ((z - u * c) + (u - d) * c + (d - d0) * c) (d0 * (c - c2))).
      pose proof (Rabs_triang ((z - u * c) + (u - d) * c) ((d - d0) * c)).
      pose proof (Rabs_triang (z - u * c) ((u - d) * c)). lra.
  - rewrite Rabs_mult, (Rabs_pos_eq c2) by lra. pose proof (Rabs_pos d0). nra.
Qed.

(** A whole line. *)
Definition near_line T (n : Z) (e m : R) (f : Z -> num) (g : Z -> R) : Prop :=
  forall k, 0 <= k < n -> near T e (f k) (g k) /\ (Rabs (g k) <= m)%R.

Lemma line_direct_near T k e m n f g : real_type T -> 1 <= k <= 30 -> (0 <= e)%R -> n mod 2 = 0 ->
  (2 * m + 2 * e <= bpow radix2 k)%R -> near_line T n e m f g ->
  near_line T n (1.4142136 * e + 1.7071068 * bpow radix2 (k - 24) + 0.00000003 * m)%R (1.4142136 * m)%R
    (line_direct (ieee T) (tcast T coefficient_f) (n / 2) f) (line_D c2 (n / 2) g).
Proof.
  intros HT Hk He En Hm H i Hi. unfold line_direct, sum_of, diff_of. destruct (i <? n / 2) eqn:E.
  - destruct (H (2 * i) ltac:(lia)) as [X1 X2]. destruct (H (2 * i + 1) ltac:(lia)) as [Y1 Y2].
    exact (near_step T k e m _ _ _ _ true HT Hk He X1 Y1 X2 Y2 Hm).
  - destruct (H (2 * (i - n / 2)) ltac:(lia)) as [X1 X2]. destruct (H (2 * (i - n / 2) + 1) ltac:(lia)) as [Y1 Y2].
    exact (near_step T k e m _ _ _ _ false HT Hk He X1 Y1 X2 Y2 Hm).
Qed.
Lemma line_inverse_near T k e m n f g : real_type T -> 1 <= k <= 30 -> (0 <= e)%R -> n mod 2 = 0 ->
  (2 * m + 2 * e <= bpow radix2 k)%R -> near_line T n e m f g ->
  near_line T n (1.4142136 * e + 1.7071068 * bpow radix2 (k - 24) + 0.00000003 * m)%R (1.4142136 * m)%R
    (line_inverse (ieee T) (tcast T coefficient_f) (n / 2) f) (line_I c2 (n / 2) g).
Proof.
  intros HT Hk He En Hm H i Hi. unfold line_inverse, even_of, odd_of.
  destruct (H (i / 2) ltac:(lia)) as [X1 X2]. destruct (H (i / 2 + n / 2) ltac:(lia)) as [Y1 Y2].
  destruct (i mod 2 =? 0) eqn:E.
  - exact (near_step T k e m _ _ _ _ false HT Hk He Y1 X1 Y2 X2 Hm).
  - exact (near_step T k e m _ _ _ _ true HT Hk He Y1 X1 Y2 X2 Hm).
Qed.

(** Direct and inverse transform of a matrix with values up to 255 in magnitude. *)
Lemma haar_near T w h (f : Z -> Z -> num) (g : Z -> Z -> R) : real_type T -> w mod 2 = 0 -> h mod 2 = 0 ->
  (forall x y, 0 <= x < w -> 0 <= y < h -> isN T (f x y) (g x y) /\ (Rabs (g x y) <= 255)%R) ->
  let C := tcast T coefficient_f in
  forall x y, 0 <= x < w -> 0 <= y < h ->
    near T 0.001 (line_inverse (ieee T) C (h / 2) (fun y => line_inverse (ieee T) C (w / 2) (fun x =>
       line_direct (ieee T) C (h / 2) (fun y => line_direct (ieee T) C (w / 2) (fun x => f x y) x) y) x) y) (g x y).
Proof.
  intros HT Ew Eh H C x y Hx Hy.
  rewrite <- (Rmult_1_l (g x y)). replace 1%R with ((2 * c2 * c2) * (2 * c2 * c2))%R by (rewrite c2_square; ring).
  rewrite <- (haar_exact c2 g w h x y) by assumption.
  assert (L1 : forall y, 0 <= y < h -> near_line T w 0 255 (fun x => f x y) (fun x => g x y)).
  { intros y' Hy' x' Hx'. destruct (H x' y' Hx' Hy') as [A B]. split; [|exact B]. exists (g x' y'). split; [exact A|].
    rewrite Rminus_diag_eq, Rabs_R0 by reflexivity. lra. }
  assert (B9 : bpow radix2 9 = 512%R) by reflexivity. assert (B10 : bpow radix2 10 = 1024%R) by reflexivity.
  assert (B11 : bpow radix2 11 = 2048%R) by reflexivity.
  assert (M9 : bpow radix2 (9 - 24) = (/ 32768)%R) by reflexivity.
  assert (M10 : bpow radix2 (10 - 24) = (/ 16384)%R) by reflexivity.
  assert (M11 : bpow radix2 (11 - 24) = (/ 8192)%R) by reflexivity.
  pose proof (fun y Hy => line_direct_near T 9 0 255 w _ _ HT ltac:(lia) ltac:(lra) Ew ltac:(lra) (L1 y Hy)) as L2.
  rewrite M9 in L2.
  set (e1 := (1.4142136 * 0 + 1.7071068 * / 32768 + 0.00000003 * 255)%R) in *. set (m1 := (1.4142136 * 255)%R) in *.
  assert (L3 : forall x, 0 <= x < w -> near_line T h e1 m1 (fun y => line_direct (ieee T) C (w / 2) (fun x => f x y) x) (fun y => line_D c2 (w / 2) (fun x => g x y) x)).
  { intros x' Hx' y' Hy'. apply (L2 y' Hy' x' Hx'). }
  assert (H1 : (0 <= e1 <= 0.00006)%R) by (unfold e1; lra). assert (H1' : (m1 <= 361)%R) by (unfold m1; lra).
  pose proof (fun x Hx => line_direct_near T 10 e1 m1 h _ _ HT ltac:(lia) ltac:(lra) Eh ltac:(lra) (L3 x Hx)) as L4.
  rewrite M10 in L4.
  set (e2 := (1.4142136 * e1 + 1.7071068 * / 16384 + 0.00000003 * m1)%R) in *. set (m2 := (1.4142136 * m1)%R) in *.
  assert (H2 : (0 <= e2 <= 0.000201)%R) by (unfold e2, e1, m1; lra). assert (H2' : (m2 <= 510.6)%R) by (unfold m2, m1; lra).
  assert (L5 : forall y, 0 <= y < h -> near_line T w e2 m2 (fun x => line_direct (ieee T) C (h / 2) (fun y => line_direct (ieee T) C (w / 2) (fun x => f x y) x) y)
     (fun x => line_D c2 (h / 2) (fun y => line_D c2 (w / 2) (fun x => g x y) x) y)).
  { intros y' Hy' x' Hx'. apply (L4 x' Hx' y' Hy'). }
  pose proof (fun y Hy => line_inverse_near T 10 e2 m2 w _ _ HT ltac:(lia) ltac:(lra) Ew ltac:(lra) (L5 y Hy)) as L6.
  rewrite M10 in L6.
  set (e3 := (1.4142136 * e2 + 1.7071068 * / 16384 + 0.00000003 * m2)%R) in *. set (m3 := (1.4142136 * m2)%R) in *.
  assert (H3 : (0 <= e3 <= 0.00041)%R) by (unfold e3, e2, e1, m2, m1; lra). assert (H3' : (m3 <= 723)%R) by (unfold m3, m2, m1; lra).
  assert (L7 : near_line T h e3 m3 (fun y => line_inverse (ieee T) C (w / 2) (fun x => line_direct (ieee T) C (h / 2) (fun y => line_direct (ieee T) C (w / 2) (fun x => f x y) x) y) x)
     (fun y => line_I c2 (w / 2) (fun x => line_D c2 (h / 2) (fun y => line_D c2 (w / 2) (fun x => g x y) x) y) x)).
  { intros y' Hy'. apply (L6 y' Hy' x Hx). }
  pose proof (line_inverse_near T 11 e3 m3 h _ _ HT ltac:(lia) ltac:(lra) Eh ltac:(lra) L7 y Hy) as [(r & R1 & R2) _].
  exists r. split; [exact R1|]. rewrite M11 in R2. eapply Rle_trans; [exact R2|]. lra.
Qed.
