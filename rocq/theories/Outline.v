(** The outer edge of an 8-connected set of pixels is 8-connected: every edge point next to the
    outside is on the contour that starts at the first point.  A number modulo 2 is given to every
    pixel that changes exactly where one steps between a dark pixel and the contour. *)
From Coq Require Import ZArith List Bool Lia.
From Verif Require Import Base BlobProofs.
Import ListNotations.
Open Scope Z_scope.
Ltac Zify.zify_post_hook ::= idtac.

Section OUTLINE.
Variables (white : Z * Z -> Prop) (wdec : forall p, {white p} + {~ white p}) (C : list (Z * Z)) (x0 y0 : Z).
Hypothesis C_white : forall p, In p C -> white p.
Hypothesis C_after : forall p, In p C -> x0 < fst p /\ y0 < snd p.
(** A bright neighbour of the contour that has a dark neighbour is on the contour. *)
Hypothesis C_grows : forall u v t, In u C -> adjacent u v -> white v -> adjacent v t -> ~ white t -> In v C.

Definition dark (p : Z * Z) : bool := if wdec p then false else true.
Definition onC (p : Z * Z) : bool := mem_in p C.
Definition cross (u v : Z * Z) : bool := (dark u && onC v) || (onC u && dark v).

Lemma dark_spec p : dark p = true <-> ~ white p.
Proof. unfold dark. destruct (wdec p); split; intros; (discriminate || contradiction || auto). Qed.
Lemma onC_spec p : onC p = true <-> In p C.
Proof. apply mem_in_spec. Qed.
Lemma dark_onC p : dark p = true -> onC p = false.
Proof.
  intros D. destruct (onC p) eqn:E; [|reflexivity]. apply onC_spec, C_white in E. apply dark_spec in D. contradiction.
Qed.
Lemma grows u v t : onC u = true -> adjacent u v -> dark v = false -> adjacent v t -> dark t = true -> onC v = true.
Proof.
  intros Hu A Hv B Ht. apply onC_spec. apply onC_spec in Hu. apply dark_spec in Ht.
  apply (C_grows u v t); auto. unfold dark in Hv. destruct (wdec v); [assumption|discriminate].
Qed.
Lemma above_onC x y : y <= y0 -> onC (x, y) = false.
Proof. intros H. destruct (onC (x, y)) eqn:E; [|reflexivity]. apply onC_spec, C_after in E. cbn [fst snd] in E. lia. Qed.
Lemma cross_none u v : onC u = false -> onC v = false -> cross u v = false.
Proof. intros A B. unfold cross. rewrite A, B, andb_false_r. reflexivity. Qed.

Fixpoint phin (x : Z) (n : nat) : bool :=
  match n with
  | O => false
  | S n => xorb (phin x n) (cross (x, y0 + Z.of_nat n) (x, y0 + Z.of_nat n + 1))
  end.
Definition phi (p : Z * Z) : bool := phin (fst p) (Z.to_nat (snd p - y0)).

Lemma phi_above x y : y <= y0 -> phi (x, y) = false.
Proof. intros H. unfold phi. cbn [fst snd]. replace (Z.to_nat (y - y0)) with O by lia. reflexivity. Qed.
Lemma phi_down x y : phi (x, y + 1) = xorb (phi (x, y)) (cross (x, y) (x, y + 1)).
Proof.
  destruct (Z_lt_dec y y0) as [L|L].
  - rewrite !phi_above by lia. rewrite cross_none by (apply above_onC; lia). reflexivity.
  - unfold phi. cbn [fst snd]. replace (Z.to_nat (y + 1 - y0)) with (S (Z.to_nat (y - y0))) by lia. cbn [phin].
    rewrite Z2Nat.id by lia. replace (y0 + (y - y0)) with y by ring. reflexivity.
Qed.

Ltac touch := split; [intros E; apply (f_equal fst) in E as E1; apply (f_equal snd) in E; cbn [fst snd] in *; lia|cbn [fst snd]; lia].
(** In a square of four pixels the crossings add up to 0. *)
Lemma square x y :
  xorb (xorb (cross (x, y) (x + 1, y)) (cross (x + 1, y) (x + 1, y + 1))) (xorb (cross (x, y) (x, y + 1)) (cross (x, y + 1) (x + 1, y + 1))) = false.
Proof.
  assert (ab : adjacent (x, y) (x + 1, y)) by touch.
  assert (ac : adjacent (x, y) (x, y + 1)) by touch.
  assert (ad : adjacent (x, y) (x + 1, y + 1)) by touch.
  assert (bc : adjacent (x + 1, y) (x, y + 1)) by touch.
  assert (bd : adjacent (x + 1, y) (x + 1, y + 1)) by touch.
  assert (cd : adjacent (x, y + 1) (x + 1, y + 1)) by touch.
  set (a := (x, y)) in *. set (b := (x + 1, y)) in *. set (c := (x, y + 1)) in *. set (d := (x + 1, y + 1)) in *.
  pose proof (adjacent_sym _ _ ab) as ba. pose proof (adjacent_sym _ _ ac) as ca. pose proof (adjacent_sym _ _ ad) as da.
  pose proof (adjacent_sym _ _ bc) as cb. pose proof (adjacent_sym _ _ bd) as db. pose proof (adjacent_sym _ _ cd) as dc.
  pose proof (dark_onC a) as Na. pose proof (dark_onC b) as Nb. pose proof (dark_onC c) as Nc. pose proof (dark_onC d) as Nd.
  assert (G : forall u v t, adjacent u v -> adjacent v t -> onC u && dark t && negb (dark v) && negb (onC v) = false).
  { intros u v t A B. destruct (onC u) eqn:E1, (dark t) eqn:E2, (dark v) eqn:E3, (onC v) eqn:E4; try reflexivity.
    rewrite (grows u v t) in E4 by assumption. discriminate. }
  pose proof (G a b c ab bc) as G1. pose proof (G a b d ab bd) as G2. pose proof (G a c b ac cb) as G3. pose proof (G a c d ac cd) as G4.
  pose proof (G a d b ad db) as G5. pose proof (G a d c ad dc) as G6. pose proof (G b a c ba ac) as G7. pose proof (G b a d ba ad) as G8.
  pose proof (G b c a bc ca) as G9. pose proof (G b c d bc cd) as G10. pose proof (G b d a bd da) as G11. pose proof (G b d c bd dc) as G12.
  pose proof (G c a b ca ab) as G13. pose proof (G c a d ca ad) as G14. pose proof (G c b a cb ba) as G15. pose proof (G c b d cb bd) as G16.
  pose proof (G c d a cd da) as G17. pose proof (G c d b cd db) as G18. pose proof (G d a b da ab) as G19. pose proof (G d a c da ac) as G20.
  pose proof (G d b a db ba) as G21. pose proof (G d b c db bc) as G22. pose proof (G d c a dc ca) as G23. pose proof (G d c b dc cb) as G24.
  clear G. unfold cross.
  destruct (dark a), (dark b), (dark c), (dark d), (onC a), (onC b), (onC c), (onC d); cbn [andb orb xorb negb] in *;
    try reflexivity; try discriminate; try (specialize (Na eq_refl); discriminate); try (specialize (Nb eq_refl); discriminate);
    try (specialize (Nc eq_refl); discriminate); try (specialize (Nd eq_refl); discriminate).
Qed.

Lemma phi_right x y : phi (x + 1, y) = xorb (phi (x, y)) (cross (x, y) (x + 1, y)).
Proof.
  destruct (Z_le_dec y y0) as [L|L].
  - rewrite !phi_above by lia. rewrite cross_none by (apply above_onC; lia). reflexivity.
  - replace y with (y0 + (y - y0)) by ring. pattern (y - y0). apply natlike_ind; [| |lia].
    + rewrite Z.add_0_r. rewrite !phi_above by lia. rewrite cross_none by (apply above_onC; lia). reflexivity.
    + intros n Hn IH. replace (y0 + Z.succ n) with (y0 + n + 1) by lia. rewrite !phi_down, IH.
      pose proof (square x (y0 + n)) as Q. revert Q.
      destruct (phi (x, y0 + n)), (cross (x, y0 + n) (x + 1, y0 + n)), (cross (x + 1, y0 + n) (x + 1, y0 + n + 1)),
        (cross (x, y0 + n) (x, y0 + n + 1)), (cross (x, y0 + n + 1) (x + 1, y0 + n + 1)); cbn [xorb]; congruence.
Qed.

(** Pixels side by side or on top of each other. *)
Definition near (u v : Z * Z) : Prop := Z.abs (fst u - fst v) + Z.abs (snd u - snd v) = 1.
Lemma cross_sym u v : cross u v = cross v u.
Proof. unfold cross. destruct (dark u), (dark v), (onC u), (onC v); reflexivity. Qed.
Lemma phi_near u v : near u v -> phi v = xorb (phi u) (cross u v).
Proof.
  destruct u as [a b], v as [c d]. unfold near. cbn [fst snd]. intros H.
  assert (K : (c = a + 1 /\ d = b) \/ (a = c + 1 /\ d = b) \/ (c = a /\ d = b + 1) \/ (c = a /\ b = d + 1)) by lia.
  destruct K as [[-> ->]|[[-> ->]|[[-> ->]|[-> ->]]]].
  - apply phi_right.
  - rewrite phi_right, (cross_sym (c + 1, b)). destruct (phi (c, b)), (cross (c, b) (c + 1, b)); reflexivity.
  - apply phi_down.
  - rewrite phi_down, (cross_sym (a, d + 1)). destruct (phi (a, d)), (cross (a, d) (a, d + 1)); reflexivity.
Qed.

(** It is the same for neighbours that are both bright, and for both dark. *)
Lemma phi_bright u v : white u -> white v -> adjacent u v -> phi u = phi v.
Proof.
  intros Hu Hv A.
  assert (Du : dark u = false) by (unfold dark; destruct (wdec u); [reflexivity|contradiction]).
  assert (Dv : dark v = false) by (unfold dark; destruct (wdec v); [reflexivity|contradiction]).
  assert (N : near u v \/ exists t, near u t /\ near t v /\ adjacent u t /\ adjacent t v).
  { destruct u as [a b], v as [c d]. destruct A as (Ne & A1 & A2). cbn [fst snd] in A1, A2.
    destruct (Z.eq_dec a c) as [->|Na]; [left; unfold near; cbn [fst snd]; assert (b <> d) by congruence; lia|].
    destruct (Z.eq_dec b d) as [->|Nb]; [left; unfold near; cbn [fst snd]; lia|].
    right. exists (a, d). unfold near. cbn [fst snd]. split; [lia|]. split; [lia|]. split; touch. }
  destruct N as [N|(t & N1 & N2 & A1 & A2)].
  - rewrite (phi_near u v N). unfold cross. rewrite Du, Dv, andb_false_r. cbn [andb orb]. symmetry. apply xorb_false_r.
  - rewrite (phi_near t v N2), (phi_near u t N1). unfold cross. rewrite Du, Dv. cbn [andb orb]. rewrite !andb_false_r.
    rewrite orb_false_r. cbn [orb]. destruct (dark t) eqn:Dt; cbn [andb].
    + assert (Ec : onC u = onC v).
      { pose proof (adjacent_sym _ _ A) as A'. pose proof (adjacent_sym _ _ A2) as A2'.
        destruct (onC u) eqn:Eu, (onC v) eqn:Ev; try reflexivity.
        - rewrite (grows u v t) in Ev by assumption. discriminate.
        - rewrite (grows v u t) in Eu by assumption. discriminate. }
      rewrite Ec. destruct (onC v), (phi u); reflexivity.
    + rewrite andb_false_r. destruct (phi u); reflexivity.
Qed.
Lemma phi_dark u v : ~ white u -> ~ white v -> near u v -> phi u = phi v.
Proof.
  intros Hu Hv N. apply dark_spec, dark_onC in Hu, Hv. rewrite (phi_near u v N), cross_none by assumption.
  symmetry. apply xorb_false_r.
Qed.
Lemma phi_enter u v : near u v -> ~ white u -> white v -> phi v = xorb (phi u) (onC v).
Proof.
  intros N Hu Hv. rewrite (phi_near u v N). unfold cross. apply dark_spec in Hu. rewrite Hu, (dark_onC u Hu). cbn [andb orb].
  rewrite orb_false_r. reflexivity.
Qed.

(** A column, and a row, without contour points. *)
Lemma phi_column x : (forall y, ~ In (x, y) C) -> forall y, phi (x, y) = false.
Proof.
  intros H y. destruct (Z_le_dec y y0) as [L|L]; [apply phi_above, L|].
  replace y with (y0 + (y - y0)) by ring. pattern (y - y0). apply natlike_ind; [apply phi_above; lia| |lia].
  intros n Hn IH. replace (y0 + Z.succ n) with (y0 + n + 1) by lia. rewrite phi_down, IH.
  rewrite cross_none; [reflexivity| |]; apply not_true_is_false; intros E; apply onC_spec, H in E; exact E.
Qed.
Lemma phi_row y : (forall x, ~ In (x, y) C) -> forall x, phi (x, y) = false.
Proof.
  intros H x. assert (B : phi (x0, y) = false).
  { apply phi_column. intros y' I. apply C_after in I. cbn [fst] in I. lia. }
  assert (S : forall a, phi (a + 1, y) = phi (a, y)).
  { intros a. rewrite phi_right, cross_none; [apply xorb_false_r| |]; apply not_true_is_false; intros E; apply onC_spec, H in E; exact E. }
  destruct (Z_le_dec x0 x) as [L|L].
  - replace x with (x0 + (x - x0)) by ring. pattern (x - x0). apply natlike_ind; [rewrite Z.add_0_r; exact B| |lia].
    intros n Hn IH. replace (x0 + Z.succ n) with (x0 + n + 1) by lia. rewrite S. exact IH.
  - replace x with (x0 - (x0 - x)) by ring. pattern (x0 - x). apply natlike_ind; [rewrite Z.sub_0_r; exact B| |lia].
    intros n Hn IH. rewrite <- IH. rewrite <- (S (x0 - Z.succ n)). f_equal. f_equal. lia.
Qed.
Lemma phi_over x y : (forall y', y' <= y -> ~ In (x, y') C) -> phi (x, y) = false.
Proof.
  intros H. destruct (Z_le_dec y y0) as [L|L]; [apply phi_above, L|].
  assert (P : forall n, 0 <= n -> n <= y - y0 -> phi (x, y0 + n) = false).
  { intros n Hn. pattern n. apply natlike_ind; [intros _; apply phi_above; lia| |exact Hn].
    intros k Hk IH Hle. replace (y0 + Z.succ k) with (y0 + k + 1) by lia. rewrite phi_down, IH by lia.
    rewrite cross_none; [reflexivity| |]; apply not_true_is_false; intros E; apply onC_spec, H in E; (exact E || lia). }
  specialize (P (y - y0) ltac:(lia) ltac:(lia)). replace (y0 + (y - y0)) with y in P by ring. exact P.
Qed.
Lemma phi_linked u v : white u -> linked white u v -> phi u = phi v.
Proof.
  intros Hu H. induction H as [|q r H IH A Hr]; [reflexivity|]. rewrite IH. apply phi_bright; [|exact Hr|exact A].
  exact (linked_in white u q Hu H).
Qed.
End OUTLINE.
