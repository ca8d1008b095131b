(** Loops that fill an array; the Haar transforms as functions of the matrix. *)
From Coq Require Import ZArith List Bool Lia.
From Verif Require Import Base BaseProofs ImgFun Arith Math.
Import ListNotations.
Open Scope Z_scope.
Ltac Zify.zify_post_hook ::= Z.div_mod_to_equations.

Lemma rd_ok {E A} (v : arr A) i : 0 <= i < alen v -> @rd E A v i = Ok (aget v i).
Proof. intros H. unfold rd. replace ((0 <=? i) && (i <? alen v)) with true by lia. reflexivity. Qed.
Lemma wr_ok {E A} (v : arr A) i x : 0 <= i < alen v -> @wr E A v i x = Ok (aset v i x).
Proof. intros H. unfold wr. replace ((0 <=? i) && (i <? alen v)) with true by lia. reflexivity. Qed.
Lemma aget_aset {A} (v : arr A) i x j : aget (aset v i x) j = if j =? i then x else aget v j.
Proof. reflexivity. Qed.
Lemma alen_aset {A} (v : arr A) i x : alen (aset v i x) = alen v.
Proof. reflexivity. Qed.

(** Every write puts [F c] into cell [c]: then all covered cells hold [F] and the others are
    as before. *)
Section FILL.
Context {A : Type}.
Variable F : Z -> A.
Variable N : Z.

Definition fills (t t' : arr A) (C : Z -> Prop) : Prop :=
  alen t' = alen t /\ (forall c, C c -> aget t' c = F c) /\
  (forall c, aget t' c = F c \/ aget t' c = aget t c) /\ (forall c, ~ C c -> aget t' c = aget t c).

Lemma fill1 (C : Z -> Z -> Prop) (g : Z -> arr A -> res unit (arr A)) n k t :
  alen t = N ->
  (forall i t, k <= i < k + Z.of_nat n -> alen t = N -> exists t', g i t = Ok t' /\ fills t t' (C i)) ->
  exists t', iterM n k g t = Ok t' /\ fills t t' (fun c => exists i, k <= i < k + Z.of_nat n /\ C i c).
Proof.
  intros HN Hg.
  destruct (iterM_inv (fun j s => fills t s (fun c => exists i, k <= i < j /\ C i c)) g n k t) as (s & Es & Hs).
  - repeat split; auto. intros c (i & Hi & _). lia.
  - intros i s Hi (L1 & C1 & O1 & U1). destruct (Hg i s Hi ltac:(congruence)) as (s' & E' & L2 & C2 & O2 & U2).
    exists s'. split; [exact E'|]. split; [congruence|]. split; [|split].
    + intros c (i' & Hi' & Hc). destruct (Z.eq_dec i' i) as [->|]; [apply C2, Hc|].
      destruct (O2 c) as [e|e]; [exact e|]. rewrite e. apply C1. exists i'. split; [lia|exact Hc].
    + intros c. destruct (O2 c) as [e|e]; [left; exact e|]. destruct (O1 c) as [e'|e']; [left|right]; congruence.
    + intros c Hn. rewrite U2, U1; auto.
      * intros (i' & Hi' & Hc). apply Hn. exists i'. split; [lia|exact Hc].
      * intros Hc. apply Hn. exists i. split; [lia|exact Hc].
  - exists s. split; assumption.
Qed.

Lemma fills_two t c1 v1 c2 v2 : alen t = N -> 0 <= c1 < N -> 0 <= c2 < N -> v1 = F c1 -> v2 = F c2 ->
  exists t', bind (wr t c1 v1) (fun t => wr t c2 v2) = @Ok unit _ t' /\ fills t t' (fun c => c = c1 \/ c = c2).
Proof.
  intros HN H1 H2 -> ->. exists (aset (aset t c1 (F c1)) c2 (F c2)).
  rewrite wr_ok by lia. cbn [bind]. rewrite wr_ok by (rewrite alen_aset; lia). split; [reflexivity|].
  repeat split; cbn [aget aset]; intros; destruct (Z.eqb_spec c c2); destruct (Z.eqb_spec c c1); subst; tauto.
Qed.
Lemma fills_weaken t t' (C D : Z -> Prop) : (forall c, C c <-> D c) -> fills t t' C -> fills t t' D.
Proof.
  intros H (L & C1 & O & U). repeat split; auto; intros c Hc.
  - apply C1, H, Hc.
  - apply U. intros K. apply Hc, H, K.
Qed.
End FILL.

Lemma u64_small z : 0 <= z < W64 -> u64 z = z.
Proof. intros. apply Z.mod_small. assumption. Qed.
Lemma half_split n x : n mod 2 = 0 -> 0 <= x < n -> exists k, 0 <= k < n / 2 /\ (x = k \/ x = k + n / 2).
Proof. intros. destruct (Z.ltb_spec x (n / 2)); [exists x|exists (x - n / 2)]; lia. Qed.
Lemma parity_split n x : n mod 2 = 0 -> 0 <= x < n -> exists k, 0 <= k < n / 2 /\ (x = 2 * k \/ x = 2 * k + 1).
Proof. intros. exists (x / 2). lia. Qed.

(** A pass over [U] lines of [K] pairs. *)
Definition pass {A : Type} (U K : Z) (s1 s2 d1 d2 : Z -> Z -> Z) (f1 f2 : A -> A -> A) (src t : arr A) : res unit (arr A) :=
  iterM (Z.to_nat U) 0 (fun u => iterM (Z.to_nat K) 0 (fun k t =>
    do a <- rd src (s1 u k);
    do b <- rd src (s2 u k);
    do t <- wr t (d1 u k) (f1 a b);
    wr t (d2 u k) (f2 a b))) t.

Lemma pass_ok {A : Type} (F : Z -> A) U K s1 s2 d1 d2 f1 f2 (src t : arr A) :
  0 <= U -> 0 <= K ->
  (forall u k, 0 <= u < U -> 0 <= k < K ->
     0 <= s1 u k < alen src /\ 0 <= s2 u k < alen src /\ 0 <= d1 u k < alen t /\ 0 <= d2 u k < alen t) ->
  (forall u k, 0 <= u < U -> 0 <= k < K ->
     F (d1 u k) = f1 (aget src (s1 u k)) (aget src (s2 u k)) /\ F (d2 u k) = f2 (aget src (s1 u k)) (aget src (s2 u k))) ->
  exists t', pass U K s1 s2 d1 d2 f1 f2 src t = Ok t' /\ alen t' = alen t /\
    forall u k, 0 <= u < U -> 0 <= k < K -> aget t' (d1 u k) = F (d1 u k) /\ aget t' (d2 u k) = F (d2 u k).
Proof.
  intros HU HK HR HF. unfold pass.
  match goal with |- context [iterM (Z.to_nat U) 0 ?g t] => set (G := g) end.
  destruct (fill1 F (alen t) (fun u c => exists k, 0 <= k < K /\ (c = d1 u k \/ c = d2 u k)) G (Z.to_nat U) 0 t eq_refl)
    as (t' & E & (L & C & _)).
  - intros u s Hu Ls. subst G. cbv beta.
    match goal with |- context [iterM (Z.to_nat K) 0 ?g s] => set (G := g) end.
    destruct (fill1 F (alen t) (fun k c => c = d1 u k \/ c = d2 u k) G (Z.to_nat K) 0 s Ls) as (s' & E' & Hf).
    + intros k r Hk Lr. subst G. cbv beta.
      destruct (HR u k ltac:(lia) ltac:(lia)) as (R1 & R2 & R3 & R4). destruct (HF u k ltac:(lia) ltac:(lia)) as (F1 & F2).
      rewrite !rd_ok by assumption. cbn [bind]. apply (fills_two F (alen t)); auto.
    + exists s'. split; [exact E'|]. eapply fills_weaken; [|exact Hf]. intros c. cbv beta.
      split; intros (k & Hk & Hc); exists k; (split; [lia|exact Hc]).
  - exists t'. split; [exact E|]. split; [exact L|]. intros u k Hu Hk.
    split; apply C; exists u; (split; [lia|]); exists k; auto.
Qed.

Section HAAR.
Variable A : arith.
Variable coef : carrier A.
Notation num := (carrier A).

(** The two values made from a pair, and back. *)
Definition sum_of (x y : num) : num := amul A (aadd A y x) coef.
Definition diff_of (x y : num) : num := amul A (asub A y x) coef.
Definition even_of (x y : num) : num := amul A (asub A x y) coef.
Definition odd_of (x y : num) : num := amul A (aadd A x y) coef.

(** One line of [2 h] elements. *)
Definition line_direct (h : Z) (f : Z -> num) (k : Z) : num :=
  if k <? h then sum_of (f (2 * k)) (f (2 * k + 1)) else diff_of (f (2 * (k - h))) (f (2 * (k - h) + 1)).
Definition line_inverse (h : Z) (f : Z -> num) (k : Z) : num :=
  if k mod 2 =? 0 then even_of (f (k / 2)) (f (k / 2 + h)) else odd_of (f (k / 2)) (f (k / 2 + h)).

Definition cell (w x y : Z) : Z := y * w + x.
Definition haar_direct (v : arr num) (w h x y : Z) : num :=
  line_direct (h / 2) (fun y => line_direct (w / 2) (fun x => aget v (cell w x y)) x) y.
Definition haar_inverse (v : arr num) (w h x y : Z) : num :=
  line_inverse (h / 2) (fun y => line_inverse (w / 2) (fun x => aget v (cell w x y)) x) y.

Lemma cell_range w h x y : 0 <= x < w -> 0 <= y < h -> 0 <= cell w x y < w * h.
Proof. intros. unfold cell. nia. Qed.
Lemma cell_inv w x y : 0 <= x < w -> cell w x y mod w = x /\ cell w x y / w = y.
Proof. intros H. unfold cell. destruct (divmod_flat w y x H). auto. Qed.

Section SIZE.
Variables w h : Z.
Hypothesis Hw : 0 < w.
Hypothesis Hh : 0 < h.
Hypothesis Ew : w mod 2 = 0.
Hypothesis Eh : h mod 2 = 0.
Hypothesis Hs : w * h < W64.


Lemma size_facts : u64 (h / 2 * w) = h / 2 * w /\ u64 (2 * w) = 2 * w /\ u64 (h * w) = h * w.
Proof.
  assert (2 <= h) by lia. assert (0 <= h / 2 <= h) by lia.
  repeat split; apply u64_small; nia.
Qed.

Definition rows_of (f : Z -> Z -> num) (c : Z) : num := f (c mod w) (c / w).

Lemma rows_of_cell f x y : 0 <= x < w -> rows_of f (cell w x y) = f x y.
Proof. intros H. unfold rows_of. destruct (cell_inv w x y H) as [-> ->]. reflexivity. Qed.


Lemma rows_direct (src t : arr num) : alen src = w * h -> alen t = w * h ->
  exists t', pass h (w / 2) (fun y k => cell w (2 * k) y) (fun y k => cell w (2 * k + 1) y)
                  (fun y k => cell w k y) (fun y k => cell w (k + w / 2) y) sum_of diff_of src t = Ok t' /\ alen t' = w * h /\
    forall x y, 0 <= x < w -> 0 <= y < h -> aget t' (cell w x y) = line_direct (w / 2) (fun x => aget src (cell w x y)) x.
Proof.
  intros Ls Lt.
  destruct (pass_ok (rows_of (fun x y => line_direct (w / 2) (fun x => aget src (cell w x y)) x)) h (w / 2)
    (fun y k => cell w (2 * k) y) (fun y k => cell w (2 * k + 1) y) (fun y k => cell w k y) (fun y k => cell w (k + w / 2) y)
    sum_of diff_of src t) as (t' & E & L & V); try lia.
  - intros y k Hy Hk. rewrite Ls, Lt. refine (conj _ (conj _ (conj _ _))); apply cell_range; lia.
  - intros y k Hy Hk. rewrite !rows_of_cell by lia. unfold line_direct.
    replace (k <? w / 2) with true by lia. replace (k + w / 2 <? w / 2) with false by lia.
    replace (k + w / 2 - w / 2) with k by lia. auto.
  - exists t'. split; [exact E|]. split; [congruence|]. intros x y Hx Hy.
    destruct (half_split w x Ew Hx) as (k & Hk & [-> | ->]); destruct (V y k Hy Hk) as [V1 V2].
    + rewrite V1. apply rows_of_cell. lia.
    + rewrite V2. apply rows_of_cell. lia.
Qed.
Lemma columns_direct (src t : arr num) : alen src = w * h -> alen t = w * h ->
  exists t', pass w (h / 2) (fun x k => cell w x (2 * k)) (fun x k => cell w x (2 * k + 1))
                  (fun x k => cell w x k) (fun x k => cell w x (k + h / 2)) sum_of diff_of src t = Ok t' /\ alen t' = w * h /\
    forall x y, 0 <= x < w -> 0 <= y < h -> aget t' (cell w x y) = line_direct (h / 2) (fun y => aget src (cell w x y)) y.
Proof.
  intros Ls Lt.
  destruct (pass_ok (rows_of (fun x y => line_direct (h / 2) (fun y => aget src (cell w x y)) y)) w (h / 2)
    (fun x k => cell w x (2 * k)) (fun x k => cell w x (2 * k + 1)) (fun x k => cell w x k) (fun x k => cell w x (k + h / 2))
    sum_of diff_of src t) as (t' & E & L & V); try lia.
  - intros y k Hy Hk. rewrite Ls, Lt. refine (conj _ (conj _ (conj _ _))); apply cell_range; lia.
  - intros y k Hy Hk. rewrite !rows_of_cell by lia. unfold line_direct.
    replace (k <? h / 2) with true by lia. replace (k + h / 2 <? h / 2) with false by lia.
    replace (k + h / 2 - h / 2) with k by lia. auto.
  - exists t'. split; [exact E|]. split; [congruence|]. intros x y Hx Hy.
    destruct (half_split h y Eh Hy) as (k & Hk & [-> | ->]); destruct (V x k Hx Hk) as [V1 V2].
    + rewrite V1. apply rows_of_cell. lia.
    + rewrite V2. apply rows_of_cell. lia.
Qed.
Lemma rows_inverse (src t : arr num) : alen src = w * h -> alen t = w * h ->
  exists t', pass h (w / 2) (fun y k => cell w k y) (fun y k => cell w (k + w / 2) y)
                  (fun y k => cell w (2 * k) y) (fun y k => cell w (2 * k + 1) y) even_of odd_of src t = Ok t' /\ alen t' = w * h /\
    forall x y, 0 <= x < w -> 0 <= y < h -> aget t' (cell w x y) = line_inverse (w / 2) (fun x => aget src (cell w x y)) x.
Proof.
  intros Ls Lt.
  destruct (pass_ok (rows_of (fun x y => line_inverse (w / 2) (fun x => aget src (cell w x y)) x)) h (w / 2)
    (fun y k => cell w k y) (fun y k => cell w (k + w / 2) y) (fun y k => cell w (2 * k) y) (fun y k => cell w (2 * k + 1) y)
    even_of odd_of src t) as (t' & E & L & V); try lia.
  - intros y k Hy Hk. rewrite Ls, Lt. refine (conj _ (conj _ (conj _ _))); apply cell_range; lia.
  - intros y k Hy Hk. rewrite !rows_of_cell by lia. unfold line_inverse.
    replace (2 * k mod 2 =? 0) with true by lia. replace ((2 * k + 1) mod 2 =? 0) with false by lia.
    replace (2 * k / 2) with k by lia. replace ((2 * k + 1) / 2) with k by lia. auto.
  - exists t'. split; [exact E|]. split; [congruence|]. intros x y Hx Hy.
    destruct (parity_split w x Ew Hx) as (k & Hk & [-> | ->]); destruct (V y k Hy Hk) as [V1 V2].
    + rewrite V1. apply rows_of_cell. lia.
    + rewrite V2. apply rows_of_cell. lia.
Qed.
Lemma columns_inverse (src t : arr num) : alen src = w * h -> alen t = w * h ->
  exists t', pass w (h / 2) (fun x k => cell w x k) (fun x k => cell w x (k + h / 2))
                  (fun x k => cell w x (2 * k)) (fun x k => cell w x (2 * k + 1)) even_of odd_of src t = Ok t' /\ alen t' = w * h /\
    forall x y, 0 <= x < w -> 0 <= y < h -> aget t' (cell w x y) = line_inverse (h / 2) (fun y => aget src (cell w x y)) y.
Proof.
  intros Ls Lt.
  destruct (pass_ok (rows_of (fun x y => line_inverse (h / 2) (fun y => aget src (cell w x y)) y)) w (h / 2)
    (fun x k => cell w x k) (fun x k => cell w x (k + h / 2)) (fun x k => cell w x (2 * k)) (fun x k => cell w x (2 * k + 1))
    even_of odd_of src t) as (t' & E & L & V); try lia.
  - intros y k Hy Hk. rewrite Ls, Lt. refine (conj _ (conj _ (conj _ _))); apply cell_range; lia.
  - intros y k Hy Hk. rewrite !rows_of_cell by lia. unfold line_inverse.
    replace (2 * k mod 2 =? 0) with true by lia. replace ((2 * k + 1) mod 2 =? 0) with false by lia.
    replace (2 * k / 2) with k by lia. replace ((2 * k + 1) / 2) with k by lia. auto.
  - exists t'. split; [exact E|]. split; [congruence|]. intros x y Hx Hy.
    destruct (parity_split h y Eh Hy) as (k & Hk & [-> | ->]); destruct (V x k Hx Hk) as [V1 V2].
    + rewrite V1. apply rows_of_cell. lia.
    + rewrite V2. apply rows_of_cell. lia.
Qed.

Lemma haar_valid (input output : arr num) : alen input = w * h -> alen output = w * h ->
  haar_invalid A input output w h = false.
Proof.
  intros Li Lo. unfold haar_invalid. rewrite Li, Lo, u64_small by nia.
  assert (w * h <> 0) by nia. lia.
Qed.

Ltac walks :=
  unfold c0, c1, at_, padd; cbn [combine map nth fst snd].

Lemma direct_ok (input output : arr num) : alen input = w * h -> alen output = w * h ->
  exists out, directTransform A coef input output w h = Ok out /\ alen out = w * h /\
    forall x y, 0 <= x < w -> 0 <= y < h -> aget out (cell w x y) = haar_direct input w h x y.
Proof.
  intros Li Lo. unfold directTransform. rewrite haar_valid by assumption.
  destruct size_facts as (-> & -> & ->).
  destruct (rows_direct input (mkArr (alen input) (fun _ => aZ A 0)) Li Li) as (t & Et & Lt & Vt).
  destruct (columns_direct t output Lt Lo) as (o & Eo & L & Vo).
  match goal with |- context [bind ?a ?f] => assert (Ea : a = Ok t) end.
  { rewrite <- Et. unfold pass.
    rewrite (walk_iterM h h (0, 0) [(1, 0)] w [w]) by (try lia; try reflexivity; unfold padd; cbn; f_equal; lia).
    apply iterM_ext. intros y s Hy.
    rewrite (walk_iterM (w / 2) (w / 2) _ [_] 2 [1]); try lia; try reflexivity; [|f_equal; lia].
    apply iterM_ext. intros k r Hk. walks. unfold cell, sum_of, diff_of.
    replace (0 + y * w + k * 2 + 1) with (y * w + (2 * k + 1)) by lia.
    replace (0 + y * w + k * 2) with (y * w + 2 * k) by lia.
    replace (0 + y * w + k * 1 + w / 2) with (y * w + (k + w / 2)) by lia.
    replace (0 + y * w + k * 1) with (y * w + k) by lia.
    assert (0 <= y * w + 2 * k /\ y * w + (2 * k + 1) < alen input) by (rewrite Li; clear - Hk Hy Ew Hw; nia).
    rewrite !rd_ok by lia. reflexivity. }
  rewrite Ea. cbn [bind]. exists o. split; [|split; [exact L|]].
  - rewrite <- Eo. unfold pass.
    rewrite (walk_iterM w w (1, 0) [(2, 0)] 1 [1]) by (try lia; try reflexivity; unfold padd; cbn; f_equal; lia).
    apply iterM_ext. intros x s Hx.
    rewrite (walk_iterM (h / 2) (h / 2) _ [_] (2 * w) [w]); try lia; try reflexivity.
    2:{ f_equal. assert (h = h / 2 * 2) by lia. nia. }
    apply iterM_ext. intros k r Hk. walks. unfold cell, sum_of, diff_of.
    replace (0 + x * 1 + k * (2 * w) + w) with ((2 * k + 1) * w + x) by lia.
    replace (0 + x * 1 + k * (2 * w)) with (2 * k * w + x) by lia.
    replace (0 + x * 1 + k * w + h / 2 * w) with ((k + h / 2) * w + x) by lia.
    replace (0 + x * 1 + k * w) with (k * w + x) by lia.
    pose proof (cell_range w h x (2 * k) ltac:(lia) ltac:(lia)) as R1.
    pose proof (cell_range w h x (2 * k + 1) ltac:(lia) ltac:(lia)) as R2. unfold cell in R1, R2.
    rewrite !rd_ok by lia. reflexivity.
  - intros x y Hx Hy. rewrite Vo by assumption. unfold haar_direct, line_direct at 1 2.
    destruct (y <? h / 2) eqn:E; rewrite !Vt by lia; reflexivity.
Qed.
Lemma inverse_ok (input output : arr num) : alen input = w * h -> alen output = w * h ->
  exists out, inverseTransform A coef input output w h = Ok out /\ alen out = w * h /\
    forall x y, 0 <= x < w -> 0 <= y < h -> aget out (cell w x y) = haar_inverse input w h x y.
Proof.
  intros Li Lo. unfold inverseTransform. rewrite haar_valid by assumption.
  destruct size_facts as (-> & -> & ->).
  destruct (rows_inverse input (mkArr (alen input) (fun _ => aZ A 0)) Li Li) as (t & Et & Lt & Vt).
  destruct (columns_inverse t output Lt Lo) as (o & Eo & L & Vo).
  match goal with |- context [bind ?a ?f] => assert (Ea : a = Ok t) end.
  { rewrite <- Et. unfold pass.
    rewrite (walk_iterM h h (0, 0) [(1, 0)] w [w]) by (try lia; try reflexivity; unfold padd; cbn; f_equal; lia).
    apply iterM_ext. intros y s Hy.
    rewrite (walk_iterM (w / 2) (w / 2) _ [_] 2 [1]); try lia; try reflexivity; [|f_equal; lia].
    apply iterM_ext. intros k r Hk. walks. unfold cell, even_of, odd_of.
    replace (0 + y * w + k * 2 + 1) with (y * w + (2 * k + 1)) by lia.
    replace (0 + y * w + k * 2) with (y * w + 2 * k) by lia.
    replace (0 + y * w + k * 1 + w / 2) with (y * w + (k + w / 2)) by lia.
    replace (0 + y * w + k * 1) with (y * w + k) by lia. reflexivity. }
  rewrite Ea. cbn [bind]. exists o. split; [|split; [exact L|]].
  - rewrite <- Eo. unfold pass.
    rewrite (walk_iterM w w (1, 0) [(2, 0)] 1 [1]) by (try lia; try reflexivity; unfold padd; cbn; f_equal; lia).
    apply iterM_ext. intros x s Hx.
    rewrite (walk_iterM (h / 2) (h / 2) _ [_] (2 * w) [w]); try lia; try reflexivity.
    2:{ f_equal. assert (h = h / 2 * 2) by lia. nia. }
    apply iterM_ext. intros k r Hk. walks. unfold cell, even_of, odd_of.
    replace (0 + x * 1 + k * (2 * w) + w) with ((2 * k + 1) * w + x) by lia.
    replace (0 + x * 1 + k * (2 * w)) with (2 * k * w + x) by lia.
    replace (0 + x * 1 + k * w + h / 2 * w) with ((k + h / 2) * w + x) by lia.
    replace (0 + x * 1 + k * w) with (k * w + x) by lia. reflexivity.
  - intros x y Hx Hy. rewrite Vo by assumption. unfold haar_inverse, line_inverse at 1 2.
    destruct (y mod 2 =? 0) eqn:E; rewrite !Vt by lia; reflexivity.
Qed.
End SIZE.
End HAAR.
