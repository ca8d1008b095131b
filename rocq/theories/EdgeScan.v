(** Proofs about the edge detection model: all scan lines. *)
From Coq Require Import ZArith List Bool Lia Reals Lra Sorted.
From Verif Require Import Base BaseProofs Image Spec ImgFun ImgLemmas Double DoubleProofs Blob Edge NumProofs ReduceProofs FileProofs EdgeProofs.
From Coq Require Import Floats.SpecFloat.
From Flocq Require Import Core IEEE754.BinarySingleNaN.
Import ListNotations.
Open Scope Z_scope.
Ltac Zify.zify_post_hook ::= Z.div_mod_to_equations.

(** ** Values and spacing *)
Definition val (x : num) : R := SF2R radix2 x.

Lemma isN_val T d r : isN T d r -> val d = r.
Proof. intros (b & <- & _ & <-). apply SF2R_B2SF. Qed.

Definition ranged (T : ftype) (d : num) : Prop := exists v, isN T d v /\ (1 <= v <= bpow radix2 33)%R.

Lemma drop_similar_ok T l : real_type T -> forall prev, ranged T prev -> Forall (ranged T) l ->
  Sorted (fun a b => (1 <= val b - val a)%R) (drop_similar T prev l) /\
  HdRel (fun a b => (1 <= val b - val a)%R) prev (drop_similar T prev l).
Proof.
  intros HT. induction l as [|e l IH]; intros prev Hp Hl; cbn [drop_similar].
  - split; constructor.
  - inversion Hl as [|? ? He Hl']; subst.
    destruct (dlt (tcast DOUBLE (tsub T e prev)) (dofZ 1)) eqn:D.
    + apply IH; auto.
    + destruct (IH e He Hl') as [S1 S2]. split; constructor; auto.
      destruct He as (a & Na & Ra). destruct Hp as (b & Nb & Rb).
      rewrite (isN_val _ _ _ Na), (isN_val _ _ _ Nb).
      assert (B34 : (bpow radix2 33 <= bpow radix2 34)%R) by (apply bpow_le; lia).
      apply (separated_test T e prev a b); auto; lra.
Qed.

Lemma drop_similar_incl T l : forall prev x, In x (drop_similar T prev l) -> In x l.
Proof.
  induction l as [|e l IH]; intros prev x H; cbn [drop_similar] in H; [exact H|].
  destruct (dlt _ _); [right; apply (IH prev); exact H|]. destruct H as [->|H]; [left; reflexivity|].
  right. apply (IH e). exact H.
Qed.

Lemma removeSimilarPoints_ok T l : real_type T -> Forall (ranged T) l ->
  Sorted (fun a b => (1 <= val b - val a)%R) (removeSimilarPoints T l).
Proof.
  intros HT H. destruct l as [|e l]; [constructor|]. inversion H; subst. cbn [removeSimilarPoints].
  destruct (drop_similar_ok T l HT e) as [S1 S2]; auto.
Qed.

Lemma removeSimilarPoints_incl T l x : In x (removeSimilarPoints T l) -> In x l.
Proof.
  destruct l as [|e l]; [auto|]. cbn [removeSimilarPoints]. intros [->|H]; [left; reflexivity|].
  right. apply (drop_similar_incl T l e). exact H.
Qed.

Lemma is_edge_ranged T d B lc rc c v : real_type T -> 0 <= B -> 4 * B < 2147483648 -> within B d ->
  Z.of_nat (length d) < W32 -> is_edge T d B lc rc c v -> ranged T v.
Proof.
  intros HT HB H4 Hd Hn (i & Hi & H1 & H2 & _ & -> & _).
  assert (L2 : length (D2 d) = length d) by (apply D2_length; lia).
  pose proof (Forall_at _ (D2 d) i (D2_within B d HB Hd) ltac:(lia)) as Wa.
  pose proof (Forall_at _ (D2 d) (i + 1) (D2_within B d HB Hd) ltac:(lia)) as Wb.
  cbv beta in Wa, Wb. unfold W32 in Hn.
  destruct (pt_value T i (at_z (D2 d) i) (at_z (D2 d) (i + 1)) 32) as (v & V1 & V2 & _); auto; try lia.
  exists v. auto.
Qed.

(** ** One scan line *)
Definition raw (T : ftype) (P : EdgeParameter) (d : list Z) : list num :=
  match getEdgePoints T d (D1 d) (D2 d) P with Ok l => removeSimilarPoints T l | _ => [] end.

Lemma raw_ok T P d B : real_type T -> 0 <= B -> 4 * B < 2147483648 -> within B d -> fits P (Z.of_nat (length d)) ->
  Sorted (fun a b => (1 <= val b - val a)%R) (raw T P d) /\
  Forall (is_edge T d B (ep_left P) (ep_right P) (s32 (u32 (ep_contrast P * ep_group P)))) (raw T P d).
Proof.
  intros HT HB H4 Hd Hf. destruct (getEdgePoints_ok T d B P HB H4 Hd Hf) as (l & E & Hl).
  unfold raw. rewrite E. pose proof Hf as (_ & Hn & _). split.
  - apply removeSimilarPoints_ok; auto. eapply Forall_impl; [|exact Hl]. intros v Hv.
    eapply is_edge_ranged; eauto.
  - rewrite Forall_forall in *. intros x Hx. apply Hl. eapply removeSimilarPoints_incl. exact Hx.
Qed.

Definition last_of {A} (l : list A) : list A := match rev l with [] => [] | a :: _ => [a] end.
Definition pick {A} (start : bool) (l : list A) : list A := if start then firstn 1 l else last_of l.

Lemma leaveFirst_pick {A} (l : list A) : leaveFirstElement l = pick true l.
Proof. destruct l as [|a [|b l]]; reflexivity. Qed.

Lemma leaveLast_pick {A} (l : list A) : leaveLastElement l = pick false l.
Proof.
  cbn [pick]. unfold last_of. induction l as [|a l IH]; [reflexivity|]. destruct l as [|b l]; [reflexivity|].
  change (leaveLastElement (a :: b :: l)) with (leaveLastElement (b :: l)). rewrite IH.
  cbn [rev]. destruct (rev l) as [|c r]; reflexivity.
Qed.

Definition selected (P : EdgeParameter) (l : list num) : list num :=
  match ep_edge P with ALL => l | FIRST => pick (forward P) l | LAST => pick (negb (forward P)) l end.
Definition selected_rev (P : EdgeParameter) (l : list num) : list num :=
  match ep_edge P with ALL => l | FIRST => pick (negb (forward P)) l | LAST => pick (forward P) l end.

Lemma within_rev B d : within B d -> within B (rev d).
Proof. unfold within. rewrite !Forall_forall. intros H x Hx. apply H. apply in_rev. exact Hx. Qed.

Lemma findEdgePoints1_ok T P d B first second : real_type T -> 0 <= B -> 4 * B < 2147483648 -> within B d ->
  fits P (Z.of_nat (length d)) -> vec_ok (length d) first second ->
  findEdgePoints1 T d first second P (forward P)
  = Ok (selected P (raw T P d), selected_rev P (raw T P (rev d)), (rev d, D1 (rev d), D2 (rev d))) /\
  vec_ok (length d) (D1 (rev d)) (D2 (rev d)).
Proof.
  intros HT HB H4 Hd Hf Hv. pose proof Hf as (Hn4 & Hn & _).
  destruct (getDerivatives_ok B d first second) as (E1 & V1); auto; [lia|].
  assert (Hv2 : vec_ok (length (rev d)) (D1 d) (D2 d)) by (rewrite rev_length; exact V1).
  destruct (getDerivatives_ok B (rev d) (D1 d) (D2 d)) as (E2 & V2); auto; [rewrite rev_length; lia|apply within_rev; exact Hd|].
  rewrite rev_length in V2. split; [|exact V2].
  assert (Hfr : fits P (Z.of_nat (length (rev d)))) by (rewrite rev_length; exact Hf).
  destruct (getEdgePoints_ok T d B P HB H4 Hd Hf) as (l1 & G1 & _).
  destruct (getEdgePoints_ok T (rev d) B P HB H4 (within_rev B d Hd) Hfr) as (l2 & G2 & _).
  unfold findEdgePoints1. rewrite E1. cbn [bind fst snd]. rewrite G1. cbn [bind]. rewrite E2. cbn [bind fst snd].
  rewrite G2. cbn [bind]. unfold raw. rewrite G1, G2. unfold selected, selected_rev.
  destruct (ep_edge P), (forward P); cbn [negb]; rewrite ?leaveFirst_pick, ?leaveLast_pick; reflexivity.
Qed.

(** ** Reading the pixels *)
Definition zr (n : Z) : list Z := map Z.of_nat (seq 0 (Z.to_nat n)).
Definition tab (f : Z -> Z) (n : Z) : list Z := map f (zr n).

Lemma tab_length f n : length (tab f n) = Z.to_nat n.
Proof. unfold tab, zr. rewrite !map_length, seq_length. reflexivity. Qed.

Lemma tab_at f n i : 0 <= i < n -> at_z (tab f n) i = f i.
Proof.
  intros H. unfold at_z, tab, zr. rewrite map_map.
  rewrite nth_indep with (d' := (fun k => f (Z.of_nat k)) 0%nat) by (rewrite map_length, seq_length; lia).
  rewrite (map_nth (fun k => f (Z.of_nat k))), seq_nth by lia. f_equal. lia.
Qed.

Lemma tab_eq l f n : length l = Z.to_nat n -> (forall i, 0 <= i < n -> at_z l i = f i) -> l = tab f n.
Proof.
  intros Hl H. apply nth_ext with (d := 0) (d' := 0); [rewrite tab_length; exact Hl|].
  intros i Hi. specialize (H (Z.of_nat i) ltac:(lia)).
  pose proof (tab_at f n (Z.of_nat i) ltac:(lia)) as H2. unfold at_z in *. rewrite Nat2Z.id in *. congruence.
Qed.

Lemma tab_ext f g n : (forall i, 0 <= i < n -> f i = g i) -> tab f n = tab g n.
Proof. intros H. apply tab_eq; [apply tab_length|]. intros i Hi. rewrite tab_at by exact Hi. auto. Qed.

Lemma lset_length v : forall i x, length (lset v i x) = length v.
Proof. induction v as [|a v IH]; intros [|i] x; simpl; auto. Qed.
Lemma lset_nth v : forall i x j d, (i < length v)%nat -> nth j (lset v i x) d = if (j =? i)%nat then x else nth j v d.
Proof.
  induction v as [|a v IH]; intros [|i] x [|j] d H; simpl in *; try lia; auto. apply IH. lia.
Qed.

Lemma read_line_ok m n p st stop (add : bool) data :
  0 <= n -> st <> 0 -> stop = padd p (n * st) -> length data = Z.to_nat n ->
  (forall k, 0 <= k < n -> inb m (padd p (k * st)) = true) ->
  (forall k, 0 <= k < n -> 0 <= (if add then at_z data k else 0) + get m (padd p (k * st)) < 2147483648) ->
  read_line m n p st stop add data
  = Ok (tab (fun k => (if add then at_z data k else 0) + get m (padd p (k * st))) n).
Proof.
  intros Hn Hst Hstop Hl Hin Hv. unfold read_line.
  rewrite (walk_iterM n) by (auto; lia).
  set (new := fun k => (if add then at_z data k else 0) + get m (padd p (k * st))).
  destruct (iterM_inv (fun k (s : Z * list Z) => fst s = k /\ length (snd s) = Z.to_nat n /\
              forall j, 0 <= j < n -> at_z (snd s) j = if j <? k then new j else at_z data j)
     (fun k s => (fun (cs : list ptr) (s : Z * list Z) =>
        do v <- @load mem m (c0 cs);
        do o <- (if add then vnth (snd s) (fst s) else Ok 0);
        do t <- int32 (o + v);
        do d <- vset (snd s) (fst s) t;
        Ok (fst s + 1, d)) (at_ [p] [st] k) s) (Z.to_nat n) 0 (0, data)) as (s' & E & E1 & E2 & E3).
  - cbn [fst snd]. split; [reflexivity|]. split; [exact Hl|]. intros j Hj.
    destruct (Z.ltb_spec j 0); [lia|reflexivity].
  - intros i [k d] Hi (H1 & H2 & H3). cbn [fst snd] in *. subst k.
    replace (c0 (at_ [p] [st] i)) with (padd p (i * st)) by reflexivity.
    rewrite load_ok by (apply Hin; lia). cbn [bind].
    assert (O : (if add then @vnth mem d i else Ok 0) = Ok (if add then at_z data i else 0)).
    { destruct add; [|reflexivity]. rewrite vnth_ok by lia. rewrite H3 by lia.
      destruct (Z.ltb_spec i i); [lia|reflexivity]. }
    rewrite O. cbn [bind]. specialize (Hv i ltac:(lia)).
    rewrite int32_ok by lia. cbn [bind]. fold (new i).
    unfold vset. destruct (Z.leb_spec 0 i); [|lia].
    destruct (Z.ltb_spec i (Z.of_nat (length d))); [|lia]. cbn [andb bind].
    eexists. split; [reflexivity|]. cbn [fst snd]. split; [reflexivity|]. split; [rewrite lset_length; exact H2|].
    intros j Hj. unfold at_z. rewrite lset_nth by lia.
    destruct (Nat.eqb_spec (Z.to_nat j) (Z.to_nat i)) as [e|ne].
    + assert (j = i) by lia. subst j. destruct (Z.ltb_spec i (i + 1)); [reflexivity|lia].
    + specialize (H3 j Hj). unfold at_z in H3. rewrite H3.
      destruct (Z.ltb_spec j i), (Z.ltb_spec j (i + 1)); auto; lia.
  - unfold ptr in *. rewrite E. cbn [bind]. f_equal. apply tab_eq; [exact E2|].
    intros i Hi. rewrite E3 by exact Hi. destruct (Z.ltb_spec i (0 + Z.of_nat (Z.to_nat n))); [reflexivity|lia].
Qed.

Lemma gather_ok m n g (pp : Z -> ptr) st (stop : Z -> ptr) f data :
  0 <= n -> st <> 0 -> length data = Z.to_nat n -> 1 <= g -> 255 * g < 2147483648 ->
  (forall t, 0 <= t < g -> stop t = padd (pp t) (n * st)) ->
  (forall t j, 0 <= t < g -> 0 <= j < n ->
     inb m (padd (pp t) (j * st)) = true /\ get m (padd (pp t) (j * st)) = f t j /\ 0 <= f t j <= 255) ->
  (do d <- read_line m n (pp 0) st (stop 0) false data;
   iterM (Z.to_nat (g - 1)) 1 (fun t d => read_line m n (pp t) st (stop t) true d) d)
  = Ok (tab (fun j => zsum g (fun t => f t j)) n).
Proof.
  intros Hn Hst Hl Hg Hg2 Hstop Hf.
  rewrite read_line_ok; auto; try lia.
  - cbn [bind].
    set (d0 := tab _ n).
    destruct (iterM_inv (fun k d => d = tab (fun j => zsum k (fun t => f t j)) n)
       (fun t d => read_line m n (pp t) st (stop t) true d) (Z.to_nat (g - 1)) 1 d0) as (s' & E & E1).
    + unfold d0. apply tab_ext. intros i Hi. destruct (Hf 0 i ltac:(lia) Hi) as (_ & -> & _).
      rewrite (zsum_S 0) by lia. reflexivity.
    + intros t d Ht ->. rewrite read_line_ok; auto.
      * eexists. split; [reflexivity|]. apply tab_ext. intros i Hi. rewrite tab_at by exact Hi.
        rewrite zsum_S by lia. destruct (Hf t i ltac:(lia) Hi) as (_ & -> & _). reflexivity.
      * apply Hstop. lia.
      * apply tab_length.
      * intros k Hk. apply (Hf t k); lia.
      * intros k Hk. rewrite tab_at by exact Hk. destruct (Hf t k ltac:(lia) Hk) as (_ & -> & R).
        pose proof (zsum_bound t (fun t => f t k) 0 255 ltac:(lia)) as S.
        cbv beta in S. specialize (S ltac:(intros t1 Ht1; apply (Hf t1 k); lia)). lia.
    + rewrite E. f_equal. rewrite E1. apply tab_ext. intros i Hi. f_equal. lia.
  - apply Hstop. lia.
  - intros k Hk. apply (Hf 0 k); lia.
  - intros k Hk. destruct (Hf 0 k ltac:(lia) Hk) as (_ & -> & R). lia.
Qed.

(** ** The scan lines *)
Definition nearest (T : ftype) (z e : Z) : num := SpecFloat.binary_normalize (fst T) (snd T) z e false.

Lemma position_ok T start row g : real_type T -> 0 <= start -> 0 <= row -> start + row < W32 -> 1 <= g < W32 ->
  position T start row g = nearest T (2 * (start + row) + (g - 1)) (-1).
Proof.
  intros HT H1 H2 H3 H4. unfold position, nearest. rewrite !u32_small by (unfold W32 in *; lia).
  set (s := start + row) in *. unfold W32 in *.
  destruct (Z.eq_dec (2 * s + (g - 1)) 0) as [Z0|NZ].
  { assert (s = 0) by lia. assert (g = 1) by lia. rewrite H, H0. reflexivity. }
  pose proof (real_bounds T HT) as (B1 & B2 & B3).
  assert (V : F2R (Float radix2 (2 * s + (g - 1)) (-1)) = (IZR s + IZR (g - 1) / 2)%R).
  { unfold F2R. cbn [Fnum Fexp]. rewrite plus_IZR, mult_IZR. simpl. lra. }
  assert (Q : isR (ddiv (dofZ (g - 1)) (dofZ 2)) (IZR (g - 1) / 2)).
  { assert (F : rnd (IZR (g - 1) / 2) = (IZR (g - 1) / 2)%R).
    { replace (IZR (g - 1) / 2)%R with (F2R (Float radix2 (g - 1) (-1))) by (unfold F2R; simpl; lra).
      apply rnd_format. apply (formatT_F2R 53 1024); lia. }
    rewrite <- F. apply isR_div; try (apply isR_ofZ; lia); [lra|]. rewrite F.
    apply (bound_big _ 33); [lia|]. rewrite Rabs_pos_eq.
    - pose proof (IZR_bpow (g - 1) 33 ltac:(lia) ltac:(lia)). lra.
    - pose proof (IZR_bpow (g - 1) 33 ltac:(lia) ltac:(lia)). lra. }
  assert (A : isR (dadd (dofZ s) (ddiv (dofZ (g - 1)) (dofZ 2))) (F2R (Float radix2 (2 * s + (g - 1)) (-1)))).
  { assert (F : rnd (IZR s + IZR (g - 1) / 2) = (IZR s + IZR (g - 1) / 2)%R).
    { rewrite <- V. apply rnd_format. apply (formatT_F2R 53 1024); lia. }
    rewrite V, <- F. apply isR_add; auto; [apply isR_ofZ; lia|]. rewrite F.
    apply (bound_big _ 34); [lia|].
    pose proof (IZR_bpow (g - 1) 33 ltac:(lia) ltac:(lia)). pose proof (IZR_bpow s 33 ltac:(lia) ltac:(lia)).
    rewrite Rabs_pos_eq by lra. replace 34 with (1 + 33) by lia. rewrite bpow_plus. change (bpow radix2 1) with 2%R. lra. }
  assert (LO : (/ 2 <= F2R (Float radix2 (2 * s + (g - 1)) (-1)) <= bpow radix2 34)%R).
  { split.
    - unfold F2R. cbn [Fnum Fexp]. pose proof (IZR_le 1 (2 * s + (g - 1)) ltac:(lia)). change (bpow radix2 (-1)) with (/ 2)%R. lra.
    - rewrite V. pose proof (IZR_bpow (g - 1) 33 ltac:(lia) ltac:(lia)). pose proof (IZR_bpow s 33 ltac:(lia) ltac:(lia)).
      replace 34 with (1 + 33) by lia. rewrite bpow_plus. change (bpow radix2 1) with 2%R. lra. }
  assert (BD : (Rabs (rndT (fst T) (snd T) (F2R (Float radix2 (2 * s + (g - 1)) (-1)))) < bpow radix2 (snd T))%R).
  { apply rndT_bound with (e := 34); try lia. rewrite Rabs_pos_eq by lra. lra. }
  destruct T as [p e]. cbn [fst snd] in *.
  eapply (isT_inj p e); [apply (isT_cast 53 1024); eauto| apply isT_normalize; auto|].
  assert (rndT p e (/ 2) = / 2)%R as H2'.
  { replace (/ 2)%R with (F2R (Float radix2 1 (-1))) by (unfold F2R; simpl; lra). apply rndT_format; try lia.
    apply formatT_F2R; lia. }
  pose proof (rndT_le p e) as M.
  assert (rndT p e (/ 2) <= rndT p e (F2R (Float radix2 (2 * s + (g - 1)) (-1))))%R by (apply M; lra || lia).
  lra.
Qed.

Definition vec3_ok (n : Z) (v : list Z * list Z * list Z) : Prop :=
  length (fst (fst v)) = Z.to_nat n /\ vec_ok (Z.to_nat n) (snd (fst v)) (snd v).

Lemma zr_S k : 0 <= k -> zr (k + 1) = zr k ++ [k].
Proof.
  intros H. unfold zr. replace (Z.to_nat (k + 1)) with (S (Z.to_nat k)) by lia.
  rewrite seq_S, map_app. simpl. f_equal. f_equal. lia.
Qed.

Lemma scan_loop (body : scan -> res mem scan) rows skip n base step posf negf vec0 :
  1 <= rows <= 1073741824 -> 1 <= skip < W32 ->
  (forall s, 0 <= sc_row s < rows -> sc_ptr s = padd base (sc_row s * step) -> vec3_ok n (sc_vec s) ->
     exists vec p, body s = Ok (mkScan (u32 (sc_row s + skip)) p vec (sc_pos s ++ posf (sc_row s)) (sc_neg s ++ negf (sc_row s)))
       /\ vec3_ok n vec /\ (sc_row s + skip < rows -> p = padd base ((sc_row s + skip) * step))) ->
  vec3_ok n vec0 ->
  exists s', loop (fuel_of rows) (fun s => sc_row s <? rows) body (mkScan 0 base vec0 [] []) = Ok s' /\
    sc_pos s' = flat_map (fun k => posf (k * skip)) (zr ((rows - 1) / skip + 1)) /\
    sc_neg s' = flat_map (fun k => negf (k * skip)) (zr ((rows - 1) / skip + 1)).
Proof.
  intros Hr Hs Hb H0.
  destruct (loop_rule (fun s => exists k, 0 <= k /\ sc_row s = k * skip /\ (0 < k -> (k - 1) * skip < rows) /\
       (sc_row s < rows -> sc_ptr s = padd base (sc_row s * step)) /\ vec3_ok n (sc_vec s) /\
       sc_pos s = flat_map (fun k => posf (k * skip)) (zr k) /\
       sc_neg s = flat_map (fun k => negf (k * skip)) (zr k))
     (fun s => Z.max 0 (rows - sc_row s)) (fun s => sc_row s <? rows) body)
    with (fuel := fuel_of rows) (s := mkScan 0 base vec0 [] []) as (s' & E & (k & K0 & K1 & K2 & _ & _ & K5 & K6) & C).
  - intros s _. lia.
  - intros s (k & K0 & K1 & K2 & K3 & K4 & K5 & K6) C. apply Z.ltb_lt in C.
    assert (R0 : 0 <= sc_row s) by (rewrite K1; apply Z.mul_nonneg_nonneg; lia).
    destruct (Hb s) as (vec & p & -> & V & Hp); [lia|auto|exact K4|].
    assert (U : u32 (sc_row s + skip) = sc_row s + skip).
    { apply u32_small. unfold W32 in *. destruct (Z.eq_dec k 0) as [->|Nk]; [lia|].
      assert (skip <= k * skip) by (rewrite <- (Z.mul_1_l skip) at 1; apply Z.mul_le_mono_nonneg_r; lia). lia. }
    eexists. split; [reflexivity|]. cbn [sc_row sc_ptr sc_vec sc_pos sc_neg]. rewrite U. split; [|lia].
    exists (k + 1). split; [lia|]. split; [rewrite K1; lia|]. split; [intros _; replace (k + 1 - 1) with k by lia; lia|].
    split; [exact Hp|]. split; [exact V|].
    rewrite K5, K6, zr_S, !flat_map_app by lia. cbn [flat_map]. rewrite !app_nil_r, K1. auto.
  - exists 0. cbn [sc_row sc_ptr sc_vec sc_pos sc_neg]. rewrite Z.mul_0_l. unfold padd. rewrite Z.add_0_r.
    destruct base. cbn [fst snd]. repeat (split; [auto; lia|]). auto.
  - cbn [sc_row]. unfold fuel_of. lia.
  - exists s'. split; [exact E|]. apply Z.ltb_ge in C.
    replace ((rows - 1) / skip + 1) with k; [auto|].
    destruct (Z.eq_dec k 0) as [->|Nk]; [lia|]. specialize (K2 ltac:(lia)).
    assert (B : (k - 1) * skip <= rows - 1 < k * skip) by lia.
    clear -B Hs. symmetry. assert ((rows - 1) / skip = k - 1); [|lia].
    symmetry. apply Z.div_unique with (r := rows - 1 - skip * (k - 1)); [left|]; lia.
Qed.

(** ** find *)
Definition pix (P : EdgeParameter) (m : mem) (im : image) (x y r j t : Z) : Z :=
  if horizontal P then pixel m im (x + j) (y + r + t) 0 else pixel m im (x + r + t) (y + j) 0.
Definition prof (P : EdgeParameter) (m : mem) (im : image) (x y n r : Z) : list Z :=
  tab (fun j => zsum (ep_group P) (fun t => pix P m im x y r j t)) n.

Definition up_points (T : ftype) (P : EdgeParameter) (x y r : Z) (l : list num) : list point :=
  if horizontal P then map (fun d => (tadd T d (nearest T x 0), nearest T (2 * (y + r) + (ep_group P - 1)) (-1))) l
  else map (fun d => (nearest T (2 * (x + r) + (ep_group P - 1)) (-1), tadd T (nearest T y 0) d)) l.
Definition down_points (T : ftype) (P : EdgeParameter) (x y n r : Z) (l : list num) : list point :=
  if horizontal P then
    map (fun d => (tsub T (nearest T (x + n - 1) 0) d, nearest T (2 * (y + r) + (ep_group P - 1)) (-1))) l
  else map (fun d => (nearest T (2 * (x + r) + (ep_group P - 1)) (-1), tsub T (nearest T (y + n - 1) 0) d)) l.

Definition line_pos T P m im x y n r : list point :=
  if positive_wanted P then
    if forward P then up_points T P x y r (selected P (raw T P (prof P m im x y n r)))
    else down_points T P x y n r (selected_rev P (raw T P (rev (prof P m im x y n r))))
  else [].
Definition line_neg T P m im x y n r : list point :=
  if negative_wanted P then
    if forward P then down_points T P x y n r (selected_rev P (raw T P (rev (prof P m im x y n r))))
    else up_points T P x y r (selected P (raw T P (prof P m im x y n r)))
  else [].

Lemma prof_within P m im x y n r : 0 <= ep_group P ->
  (forall j t, 0 <= j < n -> 0 <= t < ep_group P -> 0 <= pix P m im x y r j t <= 255) ->
  within (ep_group P * 255) (prof P m im x y n r).
Proof.
  intros Hg H. unfold within, prof, tab, zr. rewrite map_map. apply Forall_forall. intros v Hv.
  apply in_map_iff in Hv. destruct Hv as (k & <- & Hk). apply in_seq in Hk.
  pose proof (zsum_bound (ep_group P) (fun t => pix P m im x y r (Z.of_nat k) t) 0 255 Hg) as B.
  cbv beta in B. specialize (B ltac:(intros t Ht; apply H; lia)). lia.
Qed.

Lemma prof_length P m im x y n r : length (prof P m im x y n r) = Z.to_nat n.
Proof. apply tab_length. Qed.

Lemma zeros_ok n : 4 <= n -> vec3_ok n (repeat 0 (Z.to_nat n), repeat 0 (Z.to_nat n), repeat 0 (Z.to_nat n)).
Proof.
  intros H. unfold vec3_ok, vec_ok. cbn [fst snd]. rewrite !repeat_length. repeat split; auto.
  - replace (Z.to_nat n) with ((Z.to_nat n - 1) + 1)%nat at 2 by lia. rewrite repeat_app, skipn_app, repeat_length.
    rewrite skipn_all2 by (rewrite repeat_length; lia). rewrite Nat.sub_diag. reflexivity.
  - destruct (Z.to_nat n) eqn:E; [lia|]. reflexivity.
Qed.

(** Parameters accepted by verify that do not overflow. *)
Definition good_parameters (P : EdgeParameter) (n ext : Z) : Prop :=
  1 <= ep_group P <= ext /\ 1020 * ep_group P < 2147483648 /\ 1 <= ep_skip P < W32 /\
  1 <= ep_contrast P < 256 /\ 0 <= ep_left P < W32 /\ 0 <= ep_right P /\ ep_right P + n <= W32.

Lemma find_ok T m im x y w h P : real_type T -> area m im x y w h -> icc im = 1 -> bytes m im ->
  let n := if horizontal P then w else h in
  let ext := if horizontal P then h else w in
  4 <= n -> good_parameters P n ext ->
  find T m im x y w h P
  = Ok (flat_map (fun k => line_pos T P m im x y n (k * ep_skip P)) (zr ((ext - ep_group P) / ep_skip P + 1)),
        flat_map (fun k => line_neg T P m im x y n (k * ep_skip P)) (zr ((ext - ep_group P) / ep_skip P + 1))).
Proof.
  intros HT (Hw & Hr) Hcc Hby n ext Hn (Hg & Hg2 & Hsk & Hc & Hl & Hrt & Hrt2).
  pose proof (wf_bounds _ _ Hw) as (B1 & B2 & B3 & B4). pose proof (wf_rs _ _ Hw) as Hrs.
  pose proof (roi_rows_small _ _ _ _ _ _ Hw Hr) as Hrows. pose proof (wf_size _ _ Hw) as Hsz.
  rewrite Hcc in *. pose proof Hr as [R1 R2 R3 R4 R5 R6].
  unfold find. replace (icc im =? GRAY_SCALE) with true by (symmetry; apply Z.eqb_eq; exact Hcc).
  rewrite (valid_roi_ok m im x y w h Hw Hr).
  assert (V : verify P = true).
  { unfold verify. destruct (Z.eqb_spec (ep_group P) 0); [lia|]. destruct (Z.eqb_spec (ep_skip P) 0); [lia|].
    destruct (Z.eqb_spec (ep_contrast P) 0); [lia|]. reflexivity. }
  rewrite V.
  replace (horizontal P && (w <? 4) || negb (horizontal P) && (h <? 4)) with false
    by (symmetry; unfold n in Hn; destruct (horizontal P); cbn [andb orb negb]; [rewrite orb_false_r|]; apply Z.ltb_ge; lia).
  assert (O : padd (padd (dataptr im) (u32 (y * irs im))) x = origin im x y 1).
  { pose proof (row_ptr_origin m im x y w h 1 Hw Hr ltac:(lia)) as E. unfold row_ptr in E.
    rewrite Z.mul_1_r, (u32_small x) in E by lia. exact E. }
  assert (E4 : ext <= 1073741824).
  { unfold ext, n in *. destruct (horizontal P).
    - assert (h * 4 <= h * irs im) by (apply Z.mul_le_mono_nonneg_l; lia). unfold W32 in *. lia.
    - assert (4 * irs im <= h * irs im) by (apply Z.mul_le_mono_nonneg_r; lia). unfold W32 in *. lia. }
  assert (BYTE : forall r j t, 0 <= r -> r + ep_group P <= ext -> 0 <= j < n -> 0 <= t < ep_group P ->
            0 <= pix P m im x y r j t <= 255).
  { intros r j t Hr0 Hr1 Hj Ht. unfold pix, n, ext in *. destruct (horizontal P).
    - pose proof (Hby (x + j) (y + r + t) 0 ltac:(lia) ltac:(lia) ltac:(lia)). lia.
    - pose proof (Hby (x + r + t) (y + j) 0 ltac:(lia) ltac:(lia) ltac:(lia)). lia. }
  assert (FIT : fits P n).
  { assert (n < W32) by (unfold n; destruct (horizontal P); lia). unfold fits. lia. }
  assert (U1 : u32 (u32 (ext - ep_group P) + 1) = ext - ep_group P + 1).
  { rewrite (u32_small (ext - ep_group P)) by (unfold W32; lia). apply u32_small. unfold W32. lia. }
  assert (IN : forall i j, 0 <= i < w -> 0 <= j < h ->
            inb m (padd (origin im x y 1) (j * irs im + i)) = true /\
            get m (padd (origin im x y 1) (j * irs im + i)) = pixel m im (x + i) (y + j) 0).
  { intros i j Hi Hj. split.
    - pose proof (cell_inb m im x y w h i j Hw Hr) as C. rewrite Hcc in C. apply C; lia.
    - unfold pixel. rewrite px_origin, Hcc. f_equal. f_equal. lia. }
  (* one step *)
  assert (FE : forall r first second, 0 <= r -> r + ep_group P <= ext -> vec_ok (Z.to_nat n) first second ->
     findEdgePoints1 T (prof P m im x y n r) first second P (forward P)
     = Ok (selected P (raw T P (prof P m im x y n r)), selected_rev P (raw T P (rev (prof P m im x y n r))),
           (rev (prof P m im x y n r), D1 (rev (prof P m im x y n r)), D2 (rev (prof P m im x y n r)))) /\
     vec3_ok n (rev (prof P m im x y n r), D1 (rev (prof P m im x y n r)), D2 (rev (prof P m im x y n r)))).
  { intros r first second H0 H1 Hv.
    destruct (findEdgePoints1_ok T P (prof P m im x y n r) (ep_group P * 255) first second) as (E & V'); auto; try lia.
    - apply prof_within; [lia|]. intros j t Hj Ht. apply BYTE; lia.
    - rewrite prof_length, Z2Nat.id by lia. exact FIT.
    - rewrite prof_length. exact Hv.
    - split; [exact E|]. unfold vec3_ok. cbn [fst snd]. rewrite rev_length, prof_length in *. auto. }
  rewrite O.
  destruct (horizontal P) eqn:HP; unfold n, ext in *; clear n ext.
  - rewrite U1.
    destruct (scan_loop (scan_horizontal T m (irs im) x y w P) (h - ep_group P + 1) (ep_skip P) w
                (origin im x y 1) (irs im) (line_pos T P m im x y w) (line_neg T P m im x y w)
                (repeat 0 (Z.to_nat w), repeat 0 (Z.to_nat w), repeat 0 (Z.to_nat w))) as (s' & E & E1 & E2); auto; try lia.
    + intros s Hrow Hp Hv. unfold scan_horizontal. destruct (sc_vec s) as [[data first] second].
      destruct Hv as (Hv1 & Hv2). cbn [fst snd] in Hv1, Hv2.
      pose proof (gather_ok m w (ep_group P) (fun t => if t =? 0 then sc_ptr s else padd (sc_ptr s) (u32 (t * irs im))) 1
                    (fun t => padd (if t =? 0 then sc_ptr s else padd (sc_ptr s) (u32 (t * irs im))) w)
                    (fun t j => pix P m im x y (sc_row s) j t) data ltac:(lia) ltac:(lia) Hv1 ltac:(lia) ltac:(lia)) as G.
      cbv beta in G. rewrite Z.eqb_refl in G.
      assert (PT : forall t, 0 <= t < ep_group P ->
        (if t =? 0 then sc_ptr s else padd (sc_ptr s) (u32 (t * irs im)))
        = padd (origin im x y 1) ((sc_row s + t) * irs im)).
      { intros t Ht. rewrite Hp.
        assert (0 <= t * irs im < W32).
        { split; [apply Z.mul_nonneg_nonneg; lia|].
          apply Z.le_lt_trans with (h * irs im); [apply Z.mul_le_mono_nonneg_r; lia|lia]. }
        rewrite u32_small by lia. rewrite padd_padd.
        destruct (Z.eqb_spec t 0) as [->|]; f_equal; lia. }
      match type of G with ?A -> ?B -> _ => assert (HA : A); [|assert (HB : B)] end.
      { intros t Ht. rewrite Z.mul_1_r. reflexivity. }
      { intros t j Ht Hj. rewrite PT by exact Ht. rewrite padd_padd, Z.mul_1_r.
        destruct (IN j (sc_row s + t) Hj ltac:(lia)) as (I1 & I2). split; [exact I1|]. rewrite I2.
        split; [|apply BYTE; lia]. unfold pix. rewrite HP. f_equal. lia. }
      specialize (G HA HB).
      match goal with |- context [bind (read_line ?a ?b ?c ?d ?e ?f ?g0) ?K] =>
        assert (G' : forall K2 : list Z -> res mem scan, bind (read_line a b c d e f g0) (fun data0 => bind (iterM (Z.to_nat (ep_group P - 1)) 1
             (fun groupId data1 => read_line m w (padd (sc_ptr s) (u32 (groupId * irs im))) 1
                 (padd (padd (sc_ptr s) (u32 (groupId * irs im))) w) true data1) data0) K2)
             = K2 (prof P m im x y w (sc_row s))) end.
      { intros K2. cbv beta in G.
        rewrite <- bind_assoc.
        match type of G with ?A = _ => match goal with |- bind ?B _ = _ => replace B with A end end.
        - rewrite G. reflexivity.
        - apply bind_ext. intros d _. apply iterM_ext. intros i d' Hi.
          destruct (Z.eqb_spec i 0); [lia|]. reflexivity. }
      rewrite G'. clear G G' HA HB.
      destruct (FE (sc_row s) first second ltac:(lia) ltac:(lia) Hv2) as (F1 & F2). rewrite F1. cbn [bind].
      rewrite (position_ok T y (sc_row s) (ep_group P)) by (auto; lia).
      rewrite (u32_small (x + w - 1)) by lia.
      do 2 eexists. split; [|split; [exact F2|]].
      * unfold createPositiveXEdge, createNegativeXEdge, line_pos, line_neg, up_points, down_points. rewrite HP.
        unfold nearest, tofZ. destruct (forward P); reflexivity.
      * intros L. rewrite Hp, padd_padd. f_equal.
        assert (0 <= irs im * ep_skip P < W32).
        { split; [apply Z.mul_nonneg_nonneg; lia|]. rewrite Z.mul_comm.
          apply Z.le_lt_trans with (h * irs im); [apply Z.mul_le_mono_nonneg_r; lia|lia]. }
        rewrite u32_small by lia. lia.
    + apply zeros_ok. lia.
    + rewrite E. cbn [bind]. rewrite E1, E2. replace (h - ep_group P + 1 - 1) with (h - ep_group P) by lia. reflexivity.
  - rewrite U1.
    destruct (scan_loop (scan_vertical T m (irs im) x y h P) (w - ep_group P + 1) (ep_skip P) h
                (origin im x y 1) 1 (line_pos T P m im x y h) (line_neg T P m im x y h)
                (repeat 0 (Z.to_nat h), repeat 0 (Z.to_nat h), repeat 0 (Z.to_nat h))) as (s' & E & E1 & E2); auto; try lia.
    + intros s Hrow Hp Hv. unfold scan_vertical. destruct (sc_vec s) as [[data first] second].
      destruct Hv as (Hv1 & Hv2). cbn [fst snd] in Hv1, Hv2.
      assert (UH : u32 (h * irs im) = h * irs im) by (apply u32_small; split; [apply Z.mul_nonneg_nonneg; lia|lia]).
      rewrite UH.
      pose proof (gather_ok m h (ep_group P) (fun t => if t =? 0 then sc_ptr s else padd (sc_ptr s) t) (irs im)
                    (fun t => padd (if t =? 0 then sc_ptr s else padd (sc_ptr s) t) (h * irs im))
                    (fun t j => pix P m im x y (sc_row s) j t) data ltac:(lia) ltac:(lia) Hv1 ltac:(lia) ltac:(lia)) as G.
      cbv beta in G. rewrite Z.eqb_refl in G.
      assert (PT : forall t, 0 <= t < ep_group P ->
        (if t =? 0 then sc_ptr s else padd (sc_ptr s) t) = padd (origin im x y 1) (sc_row s + t)).
      { intros t Ht. rewrite Hp. rewrite padd_padd. destruct (Z.eqb_spec t 0) as [->|]; f_equal; lia. }
      match type of G with ?A -> ?B -> _ => assert (HA : A); [|assert (HB : B)] end.
      { intros t Ht. reflexivity. }
      { intros t j Ht Hj. rewrite PT by exact Ht. rewrite padd_padd.
        destruct (IN (sc_row s + t) j ltac:(lia) Hj) as (I1 & I2).
        replace (sc_row s + t + j * irs im) with (j * irs im + (sc_row s + t)) by lia.
        split; [exact I1|]. rewrite I2.
        split; [|apply BYTE; lia]. unfold pix. rewrite HP. f_equal. lia. }
      specialize (G HA HB).
      match goal with |- context [bind (read_line ?a ?b ?c ?d ?e ?f ?g0) ?K] =>
        assert (G' : forall K2 : list Z -> res mem scan, bind (read_line a b c d e f g0) (fun data0 => bind (iterM (Z.to_nat (ep_group P - 1)) 1
             (fun groupId data1 => read_line m h (padd (sc_ptr s) groupId) (irs im)
                 (padd (padd (sc_ptr s) groupId) (h * irs im)) true data1) data0) K2)
             = K2 (prof P m im x y h (sc_row s))) end.
      { intros K2. cbv beta in G.
        rewrite <- bind_assoc.
        match type of G with ?A = _ => match goal with |- bind ?B _ = _ => replace B with A end end.
        - rewrite G. reflexivity.
        - apply bind_ext. intros d _. apply iterM_ext. intros i d' Hi.
          destruct (Z.eqb_spec i 0); [lia|]. reflexivity. }
      rewrite G'. clear G G' HA HB.
      destruct (FE (sc_row s) first second ltac:(lia) ltac:(lia) Hv2) as (F1 & F2). rewrite F1. cbn [bind].
      rewrite (position_ok T x (sc_row s) (ep_group P)) by (auto; lia).
      rewrite (u32_small (y + h - 1)) by lia.
      do 2 eexists. split; [|split; [exact F2|]].
      * unfold createPositiveYEdge, createNegativeYEdge, line_pos, line_neg, up_points, down_points. rewrite HP.
        unfold nearest, tofZ. destruct (forward P); reflexivity.
      * intros L. rewrite Hp, padd_padd. f_equal. lia.
    + apply zeros_ok. lia.
    + rewrite E. cbn [bind]. rewrite E1, E2. replace (w - ep_group P + 1 - 1) with (w - ep_group P) by lia. reflexivity.
Qed.
