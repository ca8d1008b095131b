(** kissfft computes the discrete Fourier transform in exact arithmetic. *)
From Coq Require Import ZArith List Bool Lia Reals Lra Ring.
From Verif Require Import Base BaseProofs Arith HaarProofs Fft Kiss FftSpec FftSum FftProofs.
Import ListNotations.
Open Scope Z_scope.

(** ** Factors *)

(** The list of (radix, rest) pairs of a decomposition of n. *)
Fixpoint chain (n : Z) (l : list (Z * Z)) : Prop :=
  match l with
  | [] => False
  | (p, m) :: r => 1 <= p /\ 1 <= m /\ p * m = n /\ (m = 1 \/ chain m r)
  end.

Definition radix (p : Z) : Prop := p = 4 \/ p = 2 \/ 3 <= p /\ p mod 2 = 1.
Definition step_bound (fs p : Z) : Z :=
  if p =? 4 then Z.max 0 fs + 4 else if p =? 2 then Z.max 0 fs + 3 else Z.max 0 (fs - p) + 2.

Lemma next_radix_self f fs n : 1 <= n -> next_radix (S f) fs n n = Ok n.
Proof. intros H. cbn [next_radix]. rewrite Z_mod_same_full. reflexivity. Qed.

Lemma next_radix_ok fuel : forall fs n p, 1 <= n -> radix p -> step_bound fs p < Z.of_nat fuel ->
  exists r, next_radix fuel fs n p = Ok r /\ 1 <= r /\ n mod r = 0 /\ (r = n \/ radix r).
Proof.
  induction fuel as [|f IH]; intros fs n p Hn Hp Hf.
  - exfalso. unfold step_bound in Hf. destruct (p =? 4), (p =? 2); lia.
  - cbn [next_radix]. destruct (Z.eqb_spec (n mod p) 0) as [e|e].
    + exists p. split; [reflexivity|]. split; [destruct Hp as [->|[->|Hp]]; lia|]. split; [exact e|]. right. exact Hp.
    + set (p' := if p =? 4 then 2 else if p =? 2 then 3 else p + 2).
      destruct (Z.ltb_spec fs p') as [h|h].
      * exists n. destruct f as [|f]; [exfalso; unfold step_bound in Hf; destruct (p =? 4), (p =? 2); lia|].
        rewrite next_radix_self by exact Hn. split; [reflexivity|]. split; [exact Hn|]. split; [apply Z_mod_same_full|left; reflexivity].
      * apply IH; [exact Hn| |].
        -- unfold p', radix. destruct Hp as [->|[->|[Hp Ho]]]; cbn [Z.eqb Pos.eqb]; [lia|right; right; split; [lia|reflexivity]|].
           destruct (Z.eqb_spec p 4) as [->|]; [discriminate Ho|]. destruct (Z.eqb_spec p 2) as [->|]; [lia|].
           right. right. split; [lia|]. rewrite Z.add_mod, Ho by lia. reflexivity.
        -- unfold step_bound in *. unfold p' in *. destruct Hp as [->|[->|[Hp Ho]]]; cbn [Z.eqb Pos.eqb] in *; [lia|lia|].
           destruct (Z.eqb_spec p 4) as [->|]; [discriminate Ho|]. destruct (Z.eqb_spec p 2) as [->|]; [lia|].
           destruct (Z.eqb_spec (p + 2) 4); [lia|]. destruct (Z.eqb_spec (p + 2) 2); lia.
Qed.

Lemma factor_loop_ok fuel : forall fs n p, 1 <= n -> 0 <= fs -> radix p -> n <= Z.of_nat fuel ->
  exists l, factor_loop fuel fs n p = Ok l /\ chain n l /\ (2 <= n -> 2 ^ Z.of_nat (length l) <= n) /\ (n = 1 -> length l = 1%nat).
Proof.
  induction fuel as [|f IH]; intros fs n p Hn Hs Hp Hf; [lia|].
  cbn [factor_loop]. unfold fuel_of.
  destruct (next_radix_ok (S (Z.to_nat (n + fs + 4))) fs n p Hn Hp) as (r & E & Hr & Hd & Hc).
  { assert (0 < p) by (unfold radix in Hp; lia). unfold step_bound. destruct (p =? 4), (p =? 2); lia. }
  rewrite E. cbn [bind]. apply Z.mod_divide in Hd; [|lia]. destruct Hd as (q & ->).
  rewrite Z.div_mul by lia. assert (Hq : 1 <= q) by nia.
  destruct (Z.ltb_spec 1 q) as [h|h].
  - assert (Hr2 : 2 <= r).
    { destruct Hc as [e|Hc]; [exfalso; nia|]. unfold radix in Hc. destruct Hc as [->|[->|Hc]]; lia. }
    destruct (IH fs q r) as (l & El & Cl & Ll & _); try lia.
    { destruct Hc as [e|Hc]; [exfalso; nia|exact Hc]. }
    { nia. }
    rewrite El. cbn [bind]. exists ((r, q) :: l). split; [reflexivity|]. split; [|split].
    + cbn [chain]. repeat split; try lia. right. exact Cl.
    + intros _. cbn [length]. rewrite Nat2Z.inj_succ, Z.pow_succ_r by lia. specialize (Ll ltac:(lia)). nia.
    + intros K. exfalso. nia.
  - assert (q = 1) by lia. subst q. exists [(r, 1)]. split; [reflexivity|]. split; [|split].
    + cbn [chain]. repeat split; try lia.
    + intros K. cbn [length]. change (2 ^ Z.of_nat 1) with 2. lia.
    + reflexivity.
Qed.

Lemma kf_factor_ok n : 1 <= n < 2 ^ 31 -> exists l, kf_factor n = Ok l /\ chain n l.
Proof.
  intros Hn. unfold kf_factor, fuel_of.
  destruct (factor_loop_ok (S (Z.to_nat n)) (Z.sqrt n) n 4) as (l & E & C & L & L1); try lia.
  { apply Z.sqrt_nonneg. }
  { left. reflexivity. }
  rewrite E. cbn [bind]. destruct (Z.leb_spec (Z.of_nat (length l)) 32) as [h|h].
  - exists l. split; [reflexivity|exact C].
  - exfalso. destruct (Z.eq_dec n 1) as [->|]; [rewrite L1 in h by reflexivity; lia|].
    specialize (L ltac:(lia)). assert (2 ^ 32 <= 2 ^ Z.of_nat (length l)) by (apply Z.pow_le_mono_r; lia).
    change (2 ^ 32) with 4294967296 in *. change (2 ^ 31) with 2147483648 in *. lia.
Qed.

(** ** Butterflies *)
Section EXACT.
Variables (N : Z) (inv : bool).
Hypothesis HN : 1 <= N.

Definition sg : R := if inv then 1%R else (-1)%R.
(** the N-th root of unity of the direction, to the power k *)
Definition E (k : Z) : C := cis (sg * (2 * PI * IZR k / IZR N)).
Lemma N0 : IZR N <> 0%R.
Proof. apply not_0_IZR. lia. Qed.
Lemma E_add a b : E (a + b) = cmul (E a) (E b).
Proof. unfold E. rewrite <- cis_add. f_equal. rewrite plus_IZR. field. exact N0. Qed.
Lemma E_mult k : E (N * k) = C1.
Proof.
  unfold E, sg. rewrite mult_IZR. destruct inv.
  - replace (1 * (2 * PI * (IZR N * IZR k) / IZR N))%R with (2 * PI * IZR k)%R by (field; exact N0). apply cis_2PI.
  - replace (-1 * (2 * PI * (IZR N * IZR k) / IZR N))%R with (2 * PI * IZR (- k))%R by (rewrite opp_IZR; field; exact N0). apply cis_2PI.
Qed.
Lemma E_mod k : E (k mod N) = E k.
Proof.
  rewrite (Z.div_mod k N) at 2 by lia. rewrite E_add, E_mult. ring.
Qed.
Lemma E_0 : E 0 = C1.
Proof. rewrite <- (E_mult 0). f_equal. lia. Qed.
Lemma E_opp k : E (- k) = (fst (E k), (- snd (E k))%R).
Proof.
  unfold E, cis. cbn [fst snd]. rewrite opp_IZR.
  replace (sg * (2 * PI * - IZR k / IZR N))%R with (- (sg * (2 * PI * IZR k / IZR N)))%R by (field; exact N0).
  rewrite cos_neg, sin_neg. reflexivity.
Qed.
Definition twiddles : arr (cpx exact) := mkArr N (exact_twiddle inv N).
Lemma tw_E k : aget twiddles k = E k.
Proof.
  cbn [twiddles aget]. unfold exact_twiddle, E, cis, sg. destruct inv; f_equal; f_equal; field; exact N0.
Qed.

Lemma flat_inj' m u q u' q' : 0 <= u < m -> 0 <= u' < m -> u + q * m = u' + q' * m -> u = u' /\ q = q'.
Proof. intros. assert (q = q') by nia. split; [subst|]; lia. Qed.
Lemma bfly_loop (body : Z -> arr C -> res unit (arr C)) (fo : arr C) o m p (G : Z -> Z -> C) :
  0 <= m -> 0 <= p ->
  (forall u g, 0 <= u < m -> alen g = alen fo -> (forall q, 0 <= q < p -> aget g (o + u + q * m) = aget fo (o + u + q * m)) ->
     exists g', body u g = Ok g' /\ alen g' = alen g /\ (forall q, 0 <= q < p -> aget g' (o + u + q * m) = G u q) /\
       (forall c, (forall q, 0 <= q < p -> c <> o + u + q * m) -> aget g' c = aget g c)) ->
  exists g', iterM (Z.to_nat m) 0 body fo = Ok g' /\ alen g' = alen fo /\
    (forall u q, 0 <= u < m -> 0 <= q < p -> aget g' (o + u + q * m) = G u q) /\
    (forall c, ~ o <= c < o + p * m -> aget g' c = aget fo c).
Proof.
  intros Hm Hp Hb.
  destruct (@iterM_inv unit (arr C) (fun j g => alen g = alen fo /\
     (forall u q, 0 <= u < j -> 0 <= q < p -> aget g (o + u + q * m) = G u q) /\
     (forall u q, j <= u < m -> 0 <= q < p -> aget g (o + u + q * m) = aget fo (o + u + q * m)) /\
     (forall c, ~ o <= c < o + p * m -> aget g c = aget fo c)) body (Z.to_nat m) 0 fo) as (g & Eg & L & D & _ & O).
  - split; [reflexivity|]. split; [lia|]. split; auto.
  - intros u g Hu (L & D & U & O). destruct (Hb u g) as (g' & Eg & L' & V & S); try lia.
    { intros q Hq. apply U; lia. }
    exists g'. split; [exact Eg|]. split; [congruence|]. split; [|split].
    + intros u' q Hu' Hq. destruct (Z.eq_dec u' u) as [->|]; [apply V, Hq|]. rewrite S; [apply D; lia|].
      intros q' Hq' e. destruct (flat_inj' m u' q u q') as (? & ?); try lia.
    + intros u' q Hu' Hq. rewrite S; [apply U; lia|]. intros q' Hq' e. destruct (flat_inj' m u' q u q') as (? & ?); try lia.
    + intros c Hc. rewrite S; [apply O, Hc|]. intros q' Hq' e. apply Hc. subst c. nia.
  - rewrite Z2Nat.id in * by lia. exists g. split; [exact Eg|]. split; [exact L|]. split; [exact D|exact O].
Qed.

Section BFLY.
Variables (fs m p : Z).
Hypothesis shape : 1 <= fs /\ 1 <= m /\ 1 <= p /\ fs * m * p = N.

(** the p-th root of unity, to the power k *)
Definition Om (k : Z) : C := E (fs * m * k).
Lemma Om_mod k : Om (k mod p) = Om k.
Proof.
  destruct shape as (Hfs & Hm & Hp & HNe).
  unfold Om. rewrite (Z.div_mod k p) at 2 by lia.
  replace (fs * m * (p * (k / p) + k mod p)) with (N * (k / p) + fs * m * (k mod p)) by (rewrite <- HNe; ring).
  rewrite E_add, E_mult. ring.
Qed.
Lemma Om_0 : Om 0 = C1.
Proof. unfold Om. rewrite Z.mul_0_r. apply E_0. Qed.
Lemma Om_opp k : Om (- k) = (fst (Om k), (- snd (Om k))%R).
Proof. unfold Om. rewrite Z.mul_opp_r. apply E_opp. Qed.
Lemma Om_angle k : Om k = cis (sg * (2 * PI * IZR k / IZR p)).
Proof.
  destruct shape as (Hfs & Hm & Hp & HNe).
  unfold Om, E. f_equal. rewrite <- HNe, !mult_IZR.
  field. repeat split; apply not_0_IZR; lia.
Qed.

Definition combine (fo : arr C) (o u q1 : Z) : C :=
  csum (upto p) (fun q => cmul (aget fo (o + u + q * m)) (E (fs * (u + q1 * m) * q))).
Lemma combine_om fo o u q1 :
  combine fo o u q1 = csum (upto p) (fun q => cmul (aget fo (o + u + q * m)) (cmul (E (u * (fs * q))) (Om ((q1 * q) mod p)))).
Proof.
  apply csum_ext. intros q _. f_equal. rewrite Om_mod. unfold Om. rewrite <- E_add. f_equal. ring.
Qed.
Lemma tw_range u q : 0 <= u < m -> 0 <= q < p -> 0 <= u * (fs * q) < N.
Proof. destruct shape as (Hfs & Hm & Hp & HNe). intros Hu Hq. rewrite <- HNe. assert (0 <= u * q <= (m - 1) * (p - 1)) by nia. nia. Qed.
Lemma rd_tw u q i : 0 <= u < m -> 0 <= q < p -> i = u * (fs * q) -> @rd unit _ twiddles i = Ok (E (u * (fs * q))).
Proof. intros Hu Hq ->. rewrite rd_ok, tw_E; [reflexivity|]. apply tw_range; assumption. Qed.

Definition bfly_spec (call : arr C -> Z -> res unit (arr C)) : Prop :=
  forall fo o, 0 <= o -> o + p * m <= alen fo ->
  exists g, call fo o = Ok g /\ alen g = alen fo /\
    (forall u q, 0 <= u < m -> 0 <= q < p -> aget g (o + u + q * m) = combine fo o u q) /\
    (forall c, ~ o <= c < o + p * m -> aget g c = aget fo c).
End BFLY.

(** the same lemmas for the type of the model *)
Lemma rdC (v : arr C) i : 0 <= i < alen v -> @rd unit (cpx exact) v i = Ok (aget v i).
Proof. apply (@rd_ok unit C). Qed.
Lemma wrC (v : arr C) i x : 0 <= i < alen v -> @wr unit (cpx exact) v i x = Ok (aset v i x : arr C).
Proof. apply (@wr_ok unit C). Qed.
Lemma alenC (v : arr C) i x : alen (aset v i x : arr C) = alen v.
Proof. reflexivity. Qed.
Ltac eqbs := repeat match goal with |- context [?a =? ?b] =>
  first [replace (a =? b) with true by lia | replace (a =? b) with false by lia] end.
Ltac others Hc := intros c Hc; cbn [aget aset]; 
  repeat match goal with |- context [c =? ?b] => let h := fresh in destruct (Z.eqb_spec c b) as [h|h];
    [exfalso; first [apply (Hc 0); lia | apply (Hc 1); lia | apply (Hc 2); lia | apply (Hc 3); lia | apply (Hc 4); lia]|] end; reflexivity.

Lemma bfly2_ok fs m : 1 <= fs -> 1 <= m -> fs * m * 2 = N -> bfly_spec fs m 2 (fun fo o => bfly2 exact twiddles fo o fs m).
Proof.
  intros Hfs Hm HNe fo o Ho Hl. unfold bfly2. apply bfly_loop; try lia.
  intros u g Hu L V. 
  pose proof (V 0 ltac:(lia)) as V0. pose proof (V 1 ltac:(lia)) as V1.
  replace (o + u + 0 * m) with (o + u) in V0 by lia. replace (o + u + 1 * m) with (o + u + m) in V1 by lia.
  rewrite (rdC g (o + u)), (rdC g (o + u + m)) by lia. cbn [bind].
  rewrite (rd_tw fs m 2 ltac:(lia) u 1) by lia. cbn [bind].
  rewrite wrC by lia. cbn [bind]. rewrite wrC by (rewrite alenC; lia).
  eexists. split; [reflexivity|]. split; [reflexivity|]. split.
  - intros q Hq. rewrite (combine_om fs m 2 ltac:(lia)). change (upto 2) with [0; 1].
    rewrite !csum_cons, csum_nil. rewrite V0, V1.
    replace (o + u + 0 * m) with (o + u) by lia. replace (o + u + 1 * m) with (o + u + m) by lia.
    replace (u * (fs * 0)) with 0 by lia. rewrite E_0.
    set (x0 := aget fo (o + u)). set (x1 := aget fo (o + u + m)). set (w1 := E (u * (fs * 1))).
    pose proof (Om_0 fs m) as O0.
    assert (O1 : Om fs m 1 = (-1, 0)%R).
    { rewrite (Om_angle fs m 2) by lia. unfold cis, sg. replace (2 * PI * 1 / 2)%R with PI by field.
      destruct inv; [rewrite Rmult_1_l, cos_PI, sin_PI; reflexivity|].
      replace (-1 * PI)%R with (- PI)%R by ring. rewrite cos_neg, sin_neg, cos_PI, sin_PI. f_equal; ring. }
    assert (q = 0 \/ q = 1) as [-> | ->] by lia; cbn [aget aset]; eqbs;
      change (0 * 0) with 0; change (0 * 1) with 0; change (1 * 0) with 0; change (1 * 1) with 1; change (0 mod 2) with 0; change (1 mod 2) with 1; rewrite O0, ?O1.
    + change (C_ADD exact x0 (C_MUL exact x1 w1)) with (cadd x0 (cmul x1 w1)). ring.
    + change (C_SUB exact x0 (C_MUL exact x1 w1)) with (csub x0 (cmul x1 w1)).
      replace ((-1)%R, 0%R) with (copp C1) by (unfold copp, C1; cbn; f_equal; ring). ring.
  - others Hc.
Qed.

Ltac unops := unfold C_ADD, C_SUB, C_MUL, HALF_OF, cadd, csub, cmul, C1, C0; cbn [aadd asub amul adiv aopp aZ exact fst snd].
Ltac omega_idx := repeat match goal with |- context [?a * ?b mod ?c] =>
  let r := eval compute in ((a * b) mod c) in change ((a * b) mod c) with r end.

Lemma bfly3_ok fs m : 1 <= fs -> 1 <= m -> fs * m * 3 = N -> bfly_spec fs m 3 (fun fo o => bfly3 exact twiddles fo o fs m).
Proof.
  intros Hfs Hm HNe fo o Ho Hl. unfold bfly3.
  assert (H1m : 0 <= fs * m < N) by nia.
  rewrite rd_ok by exact H1m. cbn [bind]. rewrite tw_E.
  pose proof (Om_0 fs m) as O0.
  assert (O2 : Om fs m 2 = (fst (Om fs m 1), (- snd (Om fs m 1))%R)).
  { transitivity (Om fs m (- (1))); [rewrite <- (Om_mod fs m 3 ltac:(lia) (- (1))); reflexivity|apply Om_opp]. }
  assert (O1 : fst (Om fs m 1) = (- / 2)%R).
  { rewrite (Om_angle fs m 3) by lia. unfold cis, sg. cbn [fst].
    replace (2 * PI * 1 / 3)%R with (2 * (PI / 3))%R by field.
    destruct inv; [rewrite Rmult_1_l|replace (-1 * (2 * (PI / 3)))%R with (- (2 * (PI / 3)))%R by ring; rewrite cos_neg]; rewrite cos_2PI3; lra. }
  replace (fs * m) with (fs * m * 1) in * by lia. fold (Om fs m 1).
  replace (fs * m * 1) with (fs * m) in * by lia.
  destruct (Om fs m 1) as [om y] eqn:EO. cbn [fst snd] in *. subst om.
  apply bfly_loop; try lia.
  intros u g Hu L V.
  pose proof (V 0 ltac:(lia)) as V0. pose proof (V 1 ltac:(lia)) as V1. pose proof (V 2 ltac:(lia)) as V2.
  replace (o + u + 0 * m) with (o + u) in V0 by lia. replace (o + u + 1 * m) with (o + u + m) in V1 by lia.
  rewrite (rdC g (o + u)), (rdC g (o + u + m)), (rdC g (o + u + 2 * m)) by lia. cbn [bind].
  rewrite (rd_tw fs m 3 ltac:(lia) u 1), (rd_tw fs m 3 ltac:(lia) u 2) by lia. cbn [bind].
  rewrite wrC by lia. cbn [bind]. rewrite wrC by (rewrite alenC; lia). cbn [bind]. rewrite wrC by (rewrite !alenC; lia).
  eexists. split; [reflexivity|]. split; [reflexivity|]. split.
  - intros q Hq. rewrite (combine_om fs m 3 ltac:(lia)). change (upto 3) with [0; 1; 2].
    rewrite !csum_cons, csum_nil. rewrite V0, V1, V2.
    replace (o + u + 0 * m) with (o + u) by lia. replace (o + u + 1 * m) with (o + u + m) by lia.
    replace (u * (fs * 0)) with 0 by lia. rewrite E_0.
    destruct (aget fo (o + u)) as [a0 b0]. destruct (aget fo (o + u + m)) as [a1 b1]. destruct (aget fo (o + u + 2 * m)) as [a2 b2].
    destruct (E (u * (fs * 1))) as [c1 d1]. destruct (E (u * (fs * 2))) as [c2 d2].
    assert (q = 0 \/ q = 1 \/ q = 2) as [-> | [-> | ->]] by lia; cbn [aget aset]; eqbs;
      omega_idx; rewrite O0, ?O2, ?EO;
      unops; f_equal; field.
  - others Hc.
Qed.

Lemma bfly4_ok fs m : 1 <= fs -> 1 <= m -> fs * m * 4 = N -> bfly_spec fs m 4 (fun fo o => bfly4 exact inv twiddles fo o fs m).
Proof.
  intros Hfs Hm HNe fo o Ho Hl. unfold bfly4.
  pose proof (Om_0 fs m) as O0.
  assert (O1 : Om fs m 1 = (0, sg)%R).
  { rewrite (Om_angle fs m 4) by lia. unfold cis, sg. replace (2 * PI * 1 / 4)%R with (PI / 2)%R by field.
    destruct inv; [rewrite Rmult_1_l, cos_PI2, sin_PI2; reflexivity|].
    replace (-1 * (PI / 2))%R with (- (PI / 2))%R by ring. rewrite cos_neg, sin_neg, cos_PI2, sin_PI2. f_equal; ring. }
  assert (O2 : Om fs m 2 = (-1, 0)%R).
  { rewrite (Om_angle fs m 4) by lia. unfold cis, sg. replace (2 * PI * 2 / 4)%R with PI by field.
    destruct inv; [rewrite Rmult_1_l, cos_PI, sin_PI; reflexivity|].
    replace (-1 * PI)%R with (- PI)%R by ring. rewrite cos_neg, sin_neg, cos_PI, sin_PI. f_equal; ring. }
  assert (O3 : Om fs m 3 = (0, - sg)%R).
  { transitivity (Om fs m (- (1))); [rewrite <- (Om_mod fs m 4 ltac:(lia) (- (1))); reflexivity|]. rewrite (Om_opp fs m 1), O1. reflexivity. }
  apply bfly_loop; try lia.
  intros u g Hu L V.
  pose proof (V 0 ltac:(lia)) as V0. pose proof (V 1 ltac:(lia)) as V1. pose proof (V 2 ltac:(lia)) as V2. pose proof (V 3 ltac:(lia)) as V3.
  replace (o + u + 0 * m) with (o + u) in V0 by lia. replace (o + u + 1 * m) with (o + u + m) in V1 by lia.
  rewrite (rdC g (o + u)), (rdC g (o + u + m)), (rdC g (o + u + 2 * m)), (rdC g (o + u + 3 * m)) by lia. cbn [bind].
  rewrite (rd_tw fs m 4 ltac:(lia) u 1), (rd_tw fs m 4 ltac:(lia) u 2), (rd_tw fs m 4 ltac:(lia) u 3) by lia. cbn [bind].
  rewrite wrC by lia. cbn [bind]. rewrite wrC by (rewrite alenC; lia). cbn [bind].
  set (G := if inv then _ else _).
  assert (EG : exists g', G = Ok g' /\ alen g' = alen g /\
    aget g' (o + u + 1 * m) = combine fs m 4 fo o u 1 /\ aget g' (o + u + 3 * m) = combine fs m 4 fo o u 3 /\
    aget g' (o + u + 0 * m) = combine fs m 4 fo o u 0 /\ aget g' (o + u + 2 * m) = combine fs m 4 fo o u 2 /\
    (forall c, (forall q, 0 <= q < 4 -> c <> o + u + q * m) -> aget g' c = aget g c)).
  { unfold G.
    assert (sg = if inv then 1%R else (-1)%R) as Sg by reflexivity.
    destruct inv; rewrite wrC by (rewrite !alenC; lia); cbn [bind]; rewrite wrC by (rewrite !alenC; lia);
    (eexists; split; [reflexivity|]; split; [reflexivity|]; repeat match goal with |- _ /\ _ => split end; [| | | |others Hc]);
    rewrite (combine_om fs m 4 ltac:(lia)); change (upto 4) with [0; 1; 2; 3];
    rewrite !csum_cons, csum_nil; rewrite V0, V1, V2, V3;
    replace (o + u + 0 * m) with (o + u) by lia; replace (o + u + 1 * m) with (o + u + m) by lia;
    replace (u * (fs * 0)) with 0 by lia; rewrite E_0;
    destruct (aget fo (o + u)) as [a0 b0]; destruct (aget fo (o + u + m)) as [a1 b1]; destruct (aget fo (o + u + 2 * m)) as [a2 b2]; destruct (aget fo (o + u + 3 * m)) as [a3 b3];
    destruct (E (u * (fs * 1))) as [c1 d1]; destruct (E (u * (fs * 2))) as [c2 d2]; destruct (E (u * (fs * 3))) as [c3 d3];
    cbn [aget aset]; eqbs;
      omega_idx; rewrite O0, ?O1, ?O2, ?O3, ?Sg;
      unops; f_equal; ring. }
  destruct EG as (g' & Eg & L' & W1 & W3 & W0 & W2 & S). exists g'. split; [exact Eg|]. split; [exact L'|]. split; [|exact S].
  intros q Hq. assert (q = 0 \/ q = 1 \/ q = 2 \/ q = 3) as [-> | [-> | [-> | ->]]] by lia; assumption.
Qed.

Lemma bfly5_ok fs m : 1 <= fs -> 1 <= m -> fs * m * 5 = N -> bfly_spec fs m 5 (fun fo o => bfly5 exact twiddles fo o fs m).
Proof.
  intros Hfs Hm HNe fo o Ho Hl. unfold bfly5.
  assert (H1m : 0 <= fs * m < N) by nia. assert (H2m : 0 <= fs * 2 * m < N) by nia.
  rewrite rd_ok by exact H1m. cbn [bind]. rewrite rd_ok by exact H2m. cbn [bind]. rewrite !tw_E.
  replace (E (fs * m)) with (Om fs m 1) by (unfold Om; f_equal; lia).
  replace (E (fs * 2 * m)) with (Om fs m 2) by (unfold Om; f_equal; lia).
  pose proof (Om_0 fs m) as O0.
  assert (O4 : Om fs m 4 = (fst (Om fs m 1), (- snd (Om fs m 1))%R)).
  { transitivity (Om fs m (- (1))); [rewrite <- (Om_mod fs m 5 ltac:(lia) (- (1))); reflexivity|apply Om_opp]. }
  assert (O3 : Om fs m 3 = (fst (Om fs m 2), (- snd (Om fs m 2))%R)).
  { transitivity (Om fs m (- (2))); [rewrite <- (Om_mod fs m 5 ltac:(lia) (- (2))); reflexivity|apply Om_opp]. }
  destruct (Om fs m 1) as [y1 z1] eqn:O1. destruct (Om fs m 2) as [y2 z2] eqn:O2. cbn [fst snd] in *.
  apply bfly_loop; try lia.
  intros u g Hu L V.
  pose proof (V 0 ltac:(lia)) as V0. pose proof (V 1 ltac:(lia)) as V1. pose proof (V 2 ltac:(lia)) as V2. pose proof (V 3 ltac:(lia)) as V3. pose proof (V 4 ltac:(lia)) as V4.
  replace (o + u + 0 * m) with (o + u) in V0 by lia. replace (o + u + 1 * m) with (o + u + m) in V1 by lia.
  rewrite (rdC g (o + u)), (rdC g (o + u + m)), (rdC g (o + u + 2 * m)), (rdC g (o + u + 3 * m)), (rdC g (o + u + 4 * m)) by lia. cbn [bind].
  rewrite (rd_tw fs m 5 ltac:(lia) u 1 (u * fs)), (rd_tw fs m 5 ltac:(lia) u 2 (2 * u * fs)),
    (rd_tw fs m 5 ltac:(lia) u 3 (3 * u * fs)), (rd_tw fs m 5 ltac:(lia) u 4 (4 * u * fs)) by lia. cbn [bind].
  rewrite wrC by lia. cbn [bind]. rewrite wrC by (rewrite alenC; lia). cbn [bind]. rewrite wrC by (rewrite !alenC; lia). cbn [bind].
  rewrite wrC by (rewrite !alenC; lia). cbn [bind]. rewrite wrC by (rewrite !alenC; lia).
  eexists. split; [reflexivity|]. split; [reflexivity|]. split.
  - intros q Hq. rewrite (combine_om fs m 5 ltac:(lia)). change (upto 5) with [0; 1; 2; 3; 4].
    rewrite !csum_cons, csum_nil. rewrite V0, V1, V2, V3, V4.
    replace (o + u + 0 * m) with (o + u) by lia. replace (o + u + 1 * m) with (o + u + m) by lia.
    replace (u * (fs * 0)) with 0 by lia. rewrite E_0.
    destruct (aget fo (o + u)) as [a0 b0]. destruct (aget fo (o + u + m)) as [a1 b1]. destruct (aget fo (o + u + 2 * m)) as [a2 b2].
    destruct (aget fo (o + u + 3 * m)) as [a3 b3]. destruct (aget fo (o + u + 4 * m)) as [a4 b4].
    destruct (E (u * (fs * 1))) as [c1 d1]. destruct (E (u * (fs * 2))) as [c2 d2].
    destruct (E (u * (fs * 3))) as [c3 d3]. destruct (E (u * (fs * 4))) as [c4 d4].
    assert (q = 0 \/ q = 1 \/ q = 2 \/ q = 3 \/ q = 4) as [-> | [-> | [-> | [-> | ->]]]] by lia; cbn [aget aset]; eqbs;
      omega_idx; rewrite O0, ?O1, ?O2, ?O3, ?O4;
      unops; f_equal; ring.
  - others Hc.
Qed.

Ltac cring := match goal with |- @eq _ ?a ?b => change (@eq C a b); ring end.
Lemma gather_ok (fo : arr C) o u m p : 0 <= p -> (forall q, 0 <= q < p -> 0 <= o + (u + q * m) < alen fo) ->
  exists sc : arr C, gather_scratch exact fo o u m p = Ok sc /\ alen sc = p /\
    forall q, 0 <= q < p -> aget sc q = aget fo (o + (u + q * m)).
Proof.
  intros Hp Hr. unfold gather_scratch.
  destruct (@iterM_inv unit (arr C) (fun j sc => alen sc = p /\ forall q, 0 <= q < j -> aget sc q = aget fo (o + (u + q * m)))
    (fun q1 sc => do f <- @rd unit (cpx exact) fo (o + (u + q1 * m)); wr sc q1 f) (Z.to_nat p) 0 (mkArr p (fun _ => (0%R, 0%R)))) as (sc & Es & L & V).
  - split; [reflexivity|]. lia.
  - intros q sc Hq (L & V). rewrite Z2Nat.id in Hq by lia. rewrite rdC by (apply Hr; lia). cbn [bind]. rewrite wrC by lia.
    eexists. split; [reflexivity|]. split; [exact L|]. intros q' Hq'. cbn [aget aset].
    destruct (Z.eqb_spec q' q) as [->|]; [reflexivity|apply V; lia].
  - rewrite Z2Nat.id in V by lia. exists sc. split; [exact Es|]. split; [exact L|]. exact V.
Qed.

Lemma sum_ok (sc : arr C) fs k p (f : C) : 1 <= p -> N <= 2 ^ 30 -> alen sc = p -> 0 <= fs * k < N ->
  exists t, sum_scratch exact N twiddles sc fs k p f
    = Ok (t, cadd f (csum (map (Z.add 1) (upto (p - 1))) (fun q => cmul (aget sc q) (E (fs * k * q))))).
Proof.
  intros Hp HN30 L Hk. unfold sum_scratch.
  destruct (@iterM_inv unit (Z * C) (fun j s => fst s = (fs * k * (j - 1)) mod N /\
     snd s = cadd f (csum (map (Z.add 1) (upto (j - 1))) (fun q => cmul (aget sc q) (E (fs * k * q)))))
    (fun q s =>
       let twidx := fst s + fs * k in
       if 2147483647 <? twidx then UB else
       let twidx := if N <=? twidx then twidx - N else twidx in
       do x <- @rd unit (cpx exact) sc q;
       do w <- @rd unit (cpx exact) twiddles twidx;
       Ok (twidx, C_ADD exact (snd s) (C_MUL exact x w))) (Z.to_nat (p - 1)) 1 (0, f)) as ([t s] & Es & Ht & Hs).
  - cbn [fst snd]. change (1 - 1) with 0. rewrite Z.mul_0_r, Zmod_0_l. split; [reflexivity|].
    change (upto 0) with (@nil Z). cbn [map]. rewrite csum_nil. cring.
  - intros q [t s] Hq (Ht & Hs). cbn [fst snd] in *. rewrite Z2Nat.id in Hq by lia.
    pose proof (Z.mod_pos_bound (fs * k * (q - 1)) N ltac:(lia)) as Bt. change (2 ^ 30) with 1073741824 in HN30.
    replace (2147483647 <? t + fs * k) with false by lia.
    set (t' := if N <=? t + fs * k then t + fs * k - N else t + fs * k).
    assert (Et : t' = (fs * k * q) mod N).
    { replace (fs * k * q) with (fs * k * (q - 1) + fs * k) by ring. rewrite <- Zplus_mod_idemp_l, <- Ht. unfold t'.
      destruct (Z.leb_spec N (t + fs * k)) as [h|h].
      - apply (Z.mod_unique _ _ 1); lia.
      - symmetry. apply Z.mod_small. lia. }
    assert (Rt : 0 <= t' < N) by (rewrite Et; apply Z.mod_pos_bound; lia).
    rewrite rdC by lia. cbn [bind]. rewrite rdC by exact Rt. cbn [bind].
    eexists. split; [reflexivity|]. cbn [fst snd]. split; [rewrite Et; f_equal; f_equal; lia|].
    change (aget (twiddles : arr C) t') with (aget twiddles t'). rewrite tw_E, Et, E_mod.
    replace (q + 1 - 1) with (q - 1 + 1) by lia. rewrite upto_S, map_app, csum_app by lia. cbn [map]. rewrite csum_cons, csum_nil.
    replace (1 + (q - 1)) with q by lia. rewrite Hs.
    change (C_ADD exact ?a (C_MUL exact ?b ?c)) with (cadd a (cmul b c)). cring.
  - rewrite Z2Nat.id in * by lia. replace (1 + (p - 1) - 1) with (p - 1) in * by lia.
    cbn [fst snd] in *. subst s. exists t. exact Es.
Qed.

Lemma upto_cons p : 1 <= p -> upto p = 0 :: map (Z.add 1) (upto (p - 1)).
Proof.
  intros H. unfold upto. replace (Z.to_nat p) with (S (Z.to_nat (p - 1))) by lia. cbn [seq map].
  f_equal. rewrite <- seq_shift, !map_map. apply map_ext. intros a. lia.
Qed.

Lemma generic_ok fs m p : 1 <= fs -> 1 <= m -> 1 <= p -> fs * m * p = N -> N <= 2 ^ 30 ->
  bfly_spec fs m p (fun fo o => bfly_generic exact N twiddles fo o fs m p).
Proof.
  intros Hfs Hm Hp HNe HN30 fo o Ho Hl. unfold bfly_generic. apply bfly_loop; try lia.
  intros u g Hu L V.
  assert (R : forall q, 0 <= q < p -> 0 <= o + (u + q * m) < alen g).
  { intros q Hq. rewrite L. assert (q * m + m <= p * m) by nia. lia. }
  destruct (gather_ok g o u m p ltac:(lia) R) as (sc & Es & Ls & Vs). rewrite Es. cbn [bind].
  destruct (@iterM_inv unit (arr C) (fun j h => alen h = alen g /\
      (forall q, 0 <= q < j -> aget h (o + u + q * m) = combine fs m p fo o u q) /\
      (forall c, (forall q, 0 <= q < p -> c <> o + u + q * m) -> aget h c = aget g c))
    (fun q1 fo => let k := u + q1 * m in
            do f <- @rd unit (cpx exact) sc 0;
            do s <- sum_scratch exact N twiddles sc fs k p f;
            wr fo (o + k) (snd s)) (Z.to_nat p) 0 g) as (g' & Eg & L' & V' & S').
  - split; [reflexivity|]. split; [lia|]. auto.
  - intros q h Hq (Lh & Vh & Sh). rewrite Z2Nat.id in Hq by lia. cbv zeta. rewrite rdC by lia. cbn [bind].
    destruct (sum_ok sc fs (u + q * m) p (aget sc 0) Hp HN30 Ls) as (t & Et).
    { split; [nia|]. rewrite <- HNe. assert (u + q * m < p * m) by nia. nia. }
    rewrite Et. cbn [bind snd]. rewrite wrC by (rewrite Lh; apply R; lia).
    eexists. split; [reflexivity|]. split; [exact Lh|]. split.
    + intros q' Hq'. cbn [aget aset]. destruct (Z.eqb_spec (o + u + q' * m) (o + (u + q * m))) as [e|e].
      * assert (q' = q) by nia. subst q'. unfold combine. rewrite (upto_cons p) by lia. rewrite csum_cons.
        replace (E (fs * (u + q * m) * 0)) with C1 by (rewrite Z.mul_0_r, E_0; reflexivity).
        rewrite <- V by lia. rewrite Vs by lia. replace (o + (u + 0 * m)) with (o + u + 0 * m) by lia.
        replace (csum (map (Z.add 1) (upto (p - 1))) (fun q0 => cmul (aget fo (o + u + q0 * m)) (E (fs * (u + q * m) * q0))))
          with (csum (map (Z.add 1) (upto (p - 1))) (fun q0 => cmul (aget sc q0) (E (fs * (u + q * m) * q0)))); [cring|].
        apply csum_ext. intros x Hx. apply in_map_iff in Hx. destruct Hx as (x' & <- & Hx). apply in_upto in Hx.
        rewrite Vs by lia. replace (o + (u + (1 + x') * m)) with (o + u + (1 + x') * m) by lia. rewrite V by lia. reflexivity.
      * apply Vh. assert (q' <> q) by (intros ->; lia). lia.
    + intros c Hc. cbn [aget aset]. destruct (Z.eqb_spec c (o + (u + q * m))) as [e|e]; [exfalso; apply (Hc q); lia|apply Sh, Hc].
  - rewrite Z2Nat.id in V' by lia. exists g'. split; [exact Eg|]. split; [exact L'|]. split; [exact V'|exact S'].
Qed.

Lemma butterfly_ok fs m p : 1 <= fs -> 1 <= m -> 1 <= p -> fs * m * p = N -> N <= 2 ^ 30 ->
  bfly_spec fs m p (fun fo o => butterfly exact N inv twiddles fo o fs m p).
Proof.
  intros Hfs Hm Hp HNe HN30. unfold butterfly.
  destruct (Z.eqb_spec p 2) as [->|]; [apply bfly2_ok; assumption|].
  destruct (Z.eqb_spec p 3) as [->|]; [apply bfly3_ok; assumption|].
  destruct (Z.eqb_spec p 4) as [->|]; [apply bfly4_ok; assumption|].
  destruct (Z.eqb_spec p 5) as [->|]; [apply bfly5_ok; assumption|].
  apply generic_ok; assumption.
Qed.

(** ** The recursion *)
Lemma upto_add a b : 0 <= a -> 0 <= b -> upto (a + b) = upto a ++ map (Z.add a) (upto b).
Proof.
  intros Ha Hb. revert b Hb. apply (upto_ind (fun b => upto (a + b) = upto a ++ map (Z.add a) (upto b))).
  - rewrite Z.add_0_r. change (upto 0) with (@nil Z). cbn [map]. rewrite app_nil_r. reflexivity.
  - intros b Hb IH. rewrite Z.add_assoc, upto_S, IH, upto_S, map_app, app_assoc by lia. reflexivity.
Qed.
Lemma csum_split p m f : 0 <= p -> 0 <= m ->
  csum (upto (p * m)) f = csum (upto p) (fun q => csum (upto m) (fun s => f (q + s * p))).
Proof.
  intros Hp Hm. rewrite csum_swap. revert m Hm.
  apply (upto_ind (fun m => csum (upto (p * m)) f = csum (upto m) (fun s => csum (upto p) (fun q => f (q + s * p))))).
  - rewrite Z.mul_0_r. reflexivity.
  - intros m Hm IH. rewrite Z.mul_add_distr_l, Z.mul_1_r, upto_add by nia. rewrite csum_app, IH, csum_map.
    rewrite upto_S, csum_app, csum_cons, csum_nil by exact Hm.
    replace (csum (upto p) (fun x => f (p * m + x))) with (csum (upto p) (fun q => f (q + m * p))); [ring|].
    apply csum_ext. intros q _. f_equal. ring.
Qed.

Definition part (x : Z -> C) (base fs n t : Z) : C := csum (upto n) (fun s => cmul (x (base + s * fs)) (E (fs * s * t))).

Lemma part_combine x base fs m p u q1 (fo : arr C) o : 1 <= fs -> 1 <= m -> 1 <= p -> fs * m * p = N ->
  (forall q, 0 <= q < p -> aget fo (o + u + q * m) = part x (base + q * fs) (fs * p) m u) ->
  combine fs m p fo o u q1 = part x base fs (p * m) (u + q1 * m).
Proof.
  intros Hfs Hm Hp HNe H. unfold part at 1. rewrite csum_split by lia. apply csum_ext. intros q Hq. apply in_upto in Hq.
  rewrite H by exact Hq. unfold part. rewrite csum_mul_r. apply csum_ext. intros s _.
  replace (base + q * fs + s * (fs * p)) with (base + (q + s * p) * fs) by ring.
  replace (fs * (q + s * p) * (u + q1 * m)) with (fs * p * s * u + fs * (u + q1 * m) * q + N * (s * q1)) by (rewrite <- HNe; ring).
  rewrite !E_add, E_mult. ring.
Qed.

Lemma kf_work_ok l : forall n (x : Z -> C) base fs (fo : arr C) o, chain n l -> 1 <= fs -> fs * n = N -> N <= 2 ^ 30 -> 0 <= o -> o + n <= alen fo ->
  exists g : arr C, kf_work exact N inv twiddles l x base fs fo o = Ok g /\ alen g = alen fo /\
    (forall t, 0 <= t < n -> aget g (o + t) = part x base fs n t) /\
    (forall c, ~ o <= c < o + n -> aget g c = aget fo c).
Proof.
  induction l as [|[p m] r IH]; intros n x base fs fo o Hc Hfs HNe HN30 Ho Hl; [contradiction|].
  cbn [chain] in Hc. destruct Hc as (Hp & Hm & <- & Hr).
  cbn [kf_work].
  assert (First : exists g : arr C,
    (if m =? 1
     then iterM (Z.to_nat p) 0 (fun k fo => wr fo (o + k) (x (base + k * fs))) fo
     else iterM (Z.to_nat p) 0 (fun k fo => kf_work exact N inv twiddles r x (base + k * fs) (fs * p) fo (o + k * m)) fo) = Ok g /\
    alen g = alen fo /\
    (forall q j, 0 <= q < p -> 0 <= j < m -> aget g (o + j + q * m) = part x (base + q * fs) (fs * p) m j) /\
    (forall c, ~ o <= c < o + p * m -> aget g c = aget fo c)).
  { destruct (Z.eqb_spec m 1) as [->|Hm1].
    - destruct (@iterM_inv unit (arr C) (fun k g => alen g = alen fo /\ (forall q, 0 <= q < k -> aget g (o + q) = x (base + q * fs)) /\
          (forall c, ~ o <= c < o + p -> aget g c = aget fo c))
        (fun k fo => @wr unit (cpx exact) fo (o + k) (x (base + k * fs))) (Z.to_nat p) 0 fo) as (g & Eg & L & V & S).
      + split; [reflexivity|]. split; [lia|auto].
      + intros k g Hk (L & V & S). rewrite Z2Nat.id in Hk by lia. rewrite wrC by lia. eexists. split; [reflexivity|].
        split; [exact L|]. split.
        * intros q Hq. cbn [aget aset]. destruct (Z.eqb_spec (o + q) (o + k)) as [e|e]; [f_equal; nia|apply V; lia].
        * intros c Hcc. cbn [aget aset]. destruct (Z.eqb_spec c (o + k)); [lia|apply S, Hcc].
      + rewrite Z2Nat.id in V by lia. exists g. split; [exact Eg|]. split; [exact L|]. rewrite Z.mul_1_r. split; [|exact S].
        intros q j Hq Hj. replace (o + j + q * 1) with (o + q) by lia. rewrite V by lia. unfold part.
        change (upto 1) with [0]. rewrite csum_cons, csum_nil.
        replace (fs * p * 0 * j) with 0 by ring. rewrite E_0. replace (base + q * fs + 0 * (fs * p)) with (base + q * fs) by ring. cring.
    - destruct Hr as [Hr|Hr]; [contradiction|].
      destruct (@iterM_inv unit (arr C) (fun k g => alen g = alen fo /\
          (forall q j, 0 <= q < k -> 0 <= j < m -> aget g (o + j + q * m) = part x (base + q * fs) (fs * p) m j) /\
          (forall c, ~ o <= c < o + p * m -> aget g c = aget fo c))
        (fun k fo => kf_work exact N inv twiddles r x (base + k * fs) (fs * p) fo (o + k * m)) (Z.to_nat p) 0 fo) as (g & Eg & L & V & S).
      + split; [reflexivity|]. split; [lia|auto].
      + intros k g Hk (L & V & S). rewrite Z2Nat.id in Hk by lia.
        assert (k * m + m <= p * m) by nia.
        destruct (IH m x (base + k * fs) (fs * p) g (o + k * m) Hr) as (g' & Eg & L' & V' & S'); try nia.
        exists g'. split; [exact Eg|]. split; [congruence|]. split.
        * intros q j Hq Hj. destruct (Z.eq_dec q k) as [->|Hne].
          -- replace (o + j + k * m) with (o + k * m + j) by ring. apply V', Hj.
          -- rewrite S'; [apply V; lia|]. assert (q * m + m <= k * m) by nia. lia.
        * intros c Hcc. rewrite S'; [apply S, Hcc|]. assert (0 <= k * m) by nia. lia.
      + rewrite Z2Nat.id in V by lia. exists g. split; [exact Eg|]. split; [exact L|]. split; [exact V|exact S]. }
  destruct First as (g & Eg & L & V & S).
  match goal with |- context [bind ?a _] => match type of Eg with ?b = _ => change a with b end end.
  rewrite Eg. cbn [bind].
  destruct (butterfly_ok fs m p Hfs Hm Hp) with (fo := g) (o := o) as (g' & Eg' & L' & V' & S'); try assumption; try lia.
  exists g'. split; [exact Eg'|]. split; [congruence|]. split.
  - intros t Ht. rewrite (Z.div_mod t m) by lia.
    pose proof (Z.mod_pos_bound t m ltac:(lia)) as B1.
    assert (B2 : 0 <= t / m < p) by (split; [apply Z.div_pos; lia|apply Z.div_lt_upper_bound; nia]).
    replace (o + (m * (t / m) + t mod m)) with (o + t mod m + (t / m) * m) by ring.
    rewrite V' by assumption. replace (m * (t / m) + t mod m) with (t mod m + (t / m) * m) by ring.
    apply part_combine; try assumption; [lia|]. intros q Hq. apply V; assumption.
  - intros c Hcc. rewrite S', S by assumption. reflexivity.
Qed.
End EXACT.

Theorem kiss_fft_ok inv n x junk : 1 <= n <= 2 ^ 30 ->
  exists o, kiss_fft exact exact_twiddle inv n x junk = Ok o /\ alen o = n /\
    forall t, 0 <= t < n -> aget o t = dft inv n x t.
Proof.
  intros Hn. unfold kiss_fft. destruct (kf_factor_ok n) as (l & El & Cl).
  { change (2 ^ 30) with 1073741824 in Hn. change (2 ^ 31) with 2147483648. lia. }
  rewrite El. cbn [bind].
  destruct (kf_work_ok n inv ltac:(lia) l n x 0 1 (mkArr n junk) 0 Cl) as (g & Eg & L & V & _); try lia.
  { cbn [alen]. lia. }
  exists g. split; [exact Eg|]. split; [exact L|]. intros t Ht. specialize (V t Ht). rewrite Z.add_0_l in V. etransitivity; [exact V|].
  unfold part, dft. apply csum_ext. intros s _. f_equal; [f_equal; lia|].
  unfold E, angle, sg. rewrite Z.mul_1_l. reflexivity.
Qed.
Lemma kiss_fft1_ok inv n x t : 1 <= n <= 2 ^ 30 -> 0 <= t < n -> kiss_fft1 exact exact_twiddle inv n x t = dft inv n x t.
Proof.
  intros Hn Ht. unfold kiss_fft1. destruct (kiss_fft_ok inv n x (fun _ => (aZ exact 0, aZ exact 0)) Hn) as (o & Eo & _ & V).
  rewrite Eo. apply V, Ht.
Qed.
