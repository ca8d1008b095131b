(** Proofs about the vectorised ProjectionProfile and Accumulate. *)
From Coq Require Import ZArith List Bool Lia.
From Verif Require Import Base Image Spec BaseProofs ImgFun ImgLemmas ImgProofs ConvProofs ReduceProofs Simd StepProofs SimdProofs SimdProofs2.
Import ListNotations.
Open Scope Z_scope.

Ltac Zify.zify_post_hook ::= Z.div_mod_to_equations.

(** ** Vertical profile *)

Lemma proj_vertical_ok k vec m p rs w h :
  (0 < k)%nat -> sumvec k vec -> 0 <= w < W32 -> 0 <= h -> 0 < rs -> h * rs < W32 ->
  (forall j i, 0 <= j < h -> 0 <= i < w ->
     inb m (padd p (j * rs + i)) = true /\ byte (get m (padd p (j * rs + i)))) ->
  exists out, proj_vertical k vec m p rs w h (repeat 0 (Z.to_nat h)) = Ok out /\ length out = Z.to_nat h /\
    forall j, 0 <= j < h -> zth out j = u32 (zsum w (fun i => get m (padd p (j * rs + i)))).
Proof.
  intros Hk Hv Hw Hh Hrs Hsm Hc. unfold proj_vertical.
  set (n := 16 * Z.of_nat k).
  destruct (simd_widths w n) as (ET & EN & ES & Hq & Hr & Ew); [auto|subst n; lia|].
  rewrite ET, EN, ES.
  set (g := fun j i => get m (padd p (j * rs + i))).
  destruct (zero_shape k) as [Z1 Z2].
  rewrite walk_rows by (auto; lia).
  match goal with |- exists out, iterM _ _ ?body _ = _ /\ _ =>
    destruct (@iterM_inv (list Z) (list Z) (fun j o => length o = Z.to_nat h /\
        forall k, 0 <= k < h -> zth o k = if k <? j then u32 (zsum w (g k)) else 0)
      body (Z.to_nat h) 0 (repeat 0 (Z.to_nat h))) as (out & He & Hl & Ho)
  end.
  - split; [apply repeat_length|]. intros i Hi. rewrite zth_repeat0. destruct (Z.ltb_spec i 0); [lia|reflexivity].
  - intros j o Hj (Hl & Ho).
    unfold at_, c0, c1. cbn [combine map nth fst snd padd]. rewrite Z.mul_1_r, Z.add_0_l.
    rewrite (walk_iterM (w / n)) by (try reflexivity; subst n; lia).
    destruct (@row_acc (list Z) k vec (g j) (Z.to_nat (w / n)) (repeat (repeat 0 4) k) Hv Z1) as (acc' & Ha & Hsh' & Hu').
    { intros i Hi. apply Hc; lia. }
    match goal with |- exists t', bind (iterM ?N 0 ?b ?s0) _ = _ /\ _ =>
      assert (Ha2 : iterM N 0 b s0 = Ok acc') end.
    { rewrite <- Ha. apply iterM_ext. intros q a Hq'. unfold at_. cbn [combine map nth fst snd].
      change (fst p, snd p + j * rs) with (padd p (j * rs)).
      rewrite loadr_ok.
      - cbn [bind]. fold n. do 4 f_equal. apply map_ext. intros i. unfold g. rewrite padd_padd. reflexivity.
      - intros i Hi. rewrite padd_padd. apply Hc; [lia|]. subst n. nia. }
    rewrite Ha2. cbn [bind]. clear Ha2.
    replace (Z.of_nat (Z.to_nat (w / n)) * (16 * Z.of_nat k)) with (w / n * n) in Hu' by (subst n; lia).
    rewrite Z2, Z.add_0_l in Hu'.
    (* the tail *)
    destruct (@iterM_inv (list Z) (list Z) (fun i t => length t = Z.to_nat h /\
        forall k, 0 <= k < h -> zth t k = if k =? j then u32 (zsum i (fun i => g j (w / n * n + i))) else zth o k)
      (fun i t => vadd t j (g j (w / n * n + i))) (Z.to_nat (w mod n)) 0 o) as (o1 & Ho1 & Hl1 & Hv1).
    { split; [assumption|]. intros k' Hk'. rewrite zsum_0. destruct (Z.eqb_spec k' j) as [->|]; [|reflexivity].
      rewrite (Ho j Hk'). destruct (Z.ltb_spec j j); [lia|reflexivity]. }
    { intros i t Hi (Ht & Hvt).
      destruct (@vadd_ok (list Z) t j (g j (w / n * n + i))) as (t' & E1 & E2 & E3); [lia|].
      exists t'. split; [exact E1|]. split; [lia|]. intros k' Hk'. rewrite E3 by lia. rewrite (Hvt k' Hk').
      destruct (Z.eqb_spec k' j); [|reflexivity]. rewrite zsum_S by lia.
      apply ueq_add; [apply ueq_u32|reflexivity]. }
    rewrite Z2Nat.id, Z.add_0_l in Hv1 by lia.
    match goal with |- exists t', bind ?x _ = _ /\ _ => assert (Ht : x = Ok o1) end.
    { rewrite if_tail.
      - rewrite (walk_iterM (w mod n)) by (rewrite ?Z.mul_1_r; try reflexivity; lia).
        rewrite <- Ho1. apply iterM_ext. intros i t Hi. unfold at_. cbn [combine map nth fst snd].
        change (fst p, snd p + j * rs) with (padd p (j * rs)).
        rewrite !padd_padd, Z.mul_1_r. rewrite load_ok by (rewrite <- ?Z.add_assoc; apply Hc; lia).
        cbn [bind]. unfold g. rewrite <- ?Z.add_assoc. reflexivity.
      - lia.
      - intros H0. rewrite H0. apply walk_zero. }
    rewrite Ht. cbn [bind]. clear Ht.
    destruct (@vadd_ok (list Z) o1 j (add_lanes 0 acc')) as (t' & E1 & E2 & E3); [lia|].
    exists t'. split; [exact E1|]. split; [lia|]. intros k' Hk'. rewrite E3 by lia. rewrite (Hv1 k' Hk').
    destruct (Z.eqb_spec k' j) as [->|Hne].
    + destruct (Z.ltb_spec j (j + 1)); [|lia].
      rewrite add_lanes_sum by reflexivity. rewrite Z.add_0_l.
      replace (zsum w (g j)) with (zsum (w mod n) (fun i => g j (w / n * n + i)) + zsum (w / n * n) (g j)).
      * apply ueq_add; [apply ueq_u32|]. eapply ueq_trans; [apply ueq_u32|exact Hu'].
      * rewrite Z.add_comm, <- zsum_split by lia. f_equal. symmetry. exact Ew.
    + rewrite (Ho k' Hk'). destruct (Z.ltb_spec k' j), (Z.ltb_spec k' (j + 1)); auto; lia.
  - exists out. split; [exact He|]. split; [exact Hl|]. intros j Hj. rewrite Ho by assumption.
    rewrite Z2Nat.id by lia. destruct (Z.ltb_spec j (0 + h)); [reflexivity|lia].
Qed.

(** ** Vector accesses to the uint32_t array *)

Lemma vloads_ok r n : forall k, 0 <= k -> k + Z.of_nat n <= Z.of_nat (length r) ->
  vloads r k n = Ok (map (zth r) (zseq k n)).
Proof.
  induction n as [|n IH]; intros k Hk Hn; [reflexivity|].
  cbn [vloads zseq map]. unfold vnth.
  destruct (Z.leb_spec 0 k); [|lia]. destruct (Z.ltb_spec k (Z.of_nat (length r))); [|lia].
  cbn [andb bind]. rewrite IH by lia. reflexivity.
Qed.

Lemma vstores_ok vs : forall r k, 0 <= k -> k + Z.of_nat (length vs) <= Z.of_nat (length r) ->
  exists r', vstores r k vs = Ok r' /\ length r' = length r /\
    forall i, 0 <= i -> zth r' i = if (k <=? i) && (i <? k + Z.of_nat (length vs)) then zth vs (i - k) else zth r i.
Proof.
  induction vs as [|v vs IH]; intros r k Hk Hn.
  - exists r. cbn [vstores length] in *. split; [reflexivity|]. split; [reflexivity|]. intros i Hi.
    destruct (Z.leb_spec k i), (Z.ltb_spec i (k + Z.of_nat 0)); cbn [andb]; auto; lia.
  - cbn [vstores length] in *. unfold vset.
    destruct (Z.leb_spec 0 k); [|lia]. destruct (Z.ltb_spec k (Z.of_nat (length r))); [|lia].
    cbn [andb bind].
    destruct (IH (lset r (Z.to_nat k) v) (k + 1)) as (r' & E & L & V); [lia|rewrite lset_length; lia|].
    exists r'. split; [exact E|]. split; [rewrite L; apply lset_length|].
    intros i Hi. rewrite V by lia.
    unfold zth. rewrite lset_nth by lia.
    destruct (Z.leb_spec (k + 1) i), (Z.ltb_spec i (k + 1 + Z.of_nat (length vs))), (Z.leb_spec k i),
      (Z.ltb_spec i (k + Z.of_nat (S (length vs)))); try lia; cbn [andb];
      destruct (Nat.eqb_spec (Z.to_nat i) (Z.to_nat k)); try lia; auto.
    + replace (Z.to_nat (i - k)) with (S (Z.to_nat (i - (k + 1)))) by lia. reflexivity.
    + replace (Z.to_nat (i - k)) with 0%nat by lia. reflexivity.
Qed.

Lemma zth_app a b i : 0 <= i -> zth (a ++ b) i = if i <? Z.of_nat (length a) then zth a i else zth b (i - Z.of_nat (length a)).
Proof.
  intros Hi. unfold zth. destruct (Z.ltb_spec i (Z.of_nat (length a))).
  - apply app_nth1. lia.
  - rewrite app_nth2 by lia. f_equal. lia.
Qed.

Lemma zth_map (f : Z -> Z) s n i : 0 <= i < Z.of_nat n -> zth (map f (zseq s n)) i = f (s + i).
Proof.
  intros Hi. unfold zth. rewrite (nth_indep _ 0 (f 0)) by (rewrite map_length, zseq_length; lia).
  rewrite map_nth, zseq_nth by lia. f_equal. lia.
Qed.

Lemma zth_map2 (f : Z -> Z -> Z) a : forall b i, length a = length b -> 0 <= i < Z.of_nat (length a) ->
  zth (map2 f a b) i = f (zth a i) (zth b i).
Proof.
  induction a as [|x a IH]; intros [|y b] i Hl Hi; simpl in Hl, Hi; try lia.
  rewrite map2_cons. unfold zth in *. destruct (Z.to_nat i) as [|i'] eqn:E; [reflexivity|].
  cbn [nth]. specialize (IH b (Z.of_nat i') ltac:(lia) ltac:(lia)). rewrite Nat2Z.id in IH. exact IH.
Qed.

Lemma add_at_ok r k d : 0 <= k -> k + Z.of_nat (length (concat d)) <= Z.of_nat (length r) ->
  exists r', add_at r k d = Ok r' /\ length r' = length r /\
    forall i, 0 <= i -> zth r' i = if (k <=? i) && (i <? k + Z.of_nat (length (concat d)))
                                   then u32 (zth r i + zth (concat d) (i - k)) else zth r i.
Proof.
  intros Hk Hn. unfold add_at. rewrite vloads_ok by assumption. cbn [bind].
  set (l := concat d) in *.
  assert (L2 : length l = length (map (zth r) (zseq k (length l)))) by (rewrite map_length, zseq_length; reflexivity).
  assert (L : length (map2 (fun a b => u32 (a + b)) l (map (zth r) (zseq k (length l)))) = length l)
    by (rewrite map2_length; lia).
  destruct (vstores_ok (map2 (fun a b => u32 (a + b)) l (map (zth r) (zseq k (length l)))) r k) as (r' & E & L' & V);
    [lia|rewrite L; lia|].
  exists r'. split; [exact E|]. split; [exact L'|].
  intros i Hi. rewrite V by assumption. rewrite L.
  destruct (Z.leb_spec k i), (Z.ltb_spec i (k + Z.of_nat (length l))); cbn [andb]; auto.
  rewrite zth_map2 by (auto; lia). rewrite zth_map by lia. f_equal.
  replace (k + (i - k)) with i by lia. lia.
Qed.

Lemma add_all_ok ds : forall r k, 0 <= k -> k + Z.of_nat (length (concat (map (@concat Z) ds))) <= Z.of_nat (length r) ->
  exists r', add_all r k ds = Ok r' /\ length r' = length r /\
    forall i, 0 <= i -> zth r' i = if (k <=? i) && (i <? k + Z.of_nat (length (concat (map (@concat Z) ds))))
                                   then u32 (zth r i + zth (concat (map (@concat Z) ds)) (i - k)) else zth r i.
Proof.
  induction ds as [|d ds IH]; intros r k Hk Hn; cbn [map concat add_all] in *.
  - exists r. split; [reflexivity|]. split; [reflexivity|]. intros i Hi. cbn [length].
    destruct (Z.leb_spec k i), (Z.ltb_spec i (k + Z.of_nat 0)); cbn [andb]; auto; lia.
  - rewrite app_length in *.
    destruct (add_at_ok r k d) as (r1 & E1 & L1 & V1); [lia|lia|]. rewrite E1. cbn [bind].
    destruct (IH r1 (k + Z.of_nat (length (concat d)))) as (r2 & E2 & L2 & V2); [lia|lia|].
    exists r2. split; [exact E2|]. split; [lia|]. intros i Hi. rewrite V2, V1 by assumption.
    destruct (Z.leb_spec (k + Z.of_nat (length (concat d))) i),
      (Z.ltb_spec i (k + Z.of_nat (length (concat d)) + Z.of_nat (length (concat (map (@concat Z) ds))))),
      (Z.leb_spec k i), (Z.ltb_spec i (k + Z.of_nat (length (concat d)))),
      (Z.ltb_spec i (k + Z.of_nat (length (concat d) + length (concat (map (@concat Z) ds)))));
      try lia; cbn [andb]; auto; rewrite zth_app by lia;
      destruct (Z.ltb_spec (i - k) (Z.of_nat (length (concat d)))); try lia; auto.
    do 2 f_equal. f_equal. lia.
Qed.

(** ** The widening steps of the 128-bit instruction sets *)

Definition quarters (l : list Z) : list reg := map (fun x => [x]) (lanes 4 4 l).

Definition widevec (vec : reg -> list reg) : Prop :=
  forall l, length l = 16%nat -> (forall x, In x l -> byte x) -> vec (lanes 1 16 l) = quarters l.

Lemma quarters_concat l : length l = 16%nat -> concat (map (@concat Z) (quarters l)) = l.
Proof. intros Hl. split16 l. reflexivity. Qed.

Lemma widen4_wide : widevec (widen4 1).
Proof.
  intros l Hl Hb. split16 l. unfold widen4, quarters, unpacklo_epi16, unpackhi_epi16, unpacklo_epi8, unpackhi_epi8, setzero, set1, view32, map2.
  cbn [lanes firstn skipn repeat combine map fst snd interleave interleave16 as32].
  rewrite !Z.mul_0_r, !Z.add_0_r. reflexivity.
Qed.

Lemma neon_widen4_wide : widevec (fun d => neon_widen4 (concat d)).
Proof.
  intros l Hl Hb. split16 l. unfold neon_widen4, quarters, vget_low, vget_high, vaddl, map2.
  cbn [lanes firstn skipn repeat combine map fst snd concat app].
  rewrite !Z.add_0_r. reflexivity.
Qed.

Lemma quarters_add a b : length a = 16%nat -> length b = 16%nat ->
  map2 add_epi32 (quarters a) (quarters b) = quarters (map2 (fun x y => u32 (x + y)) a b).
Proof. intros Ha Hb. split16 a. split16 b. reflexivity. Qed.

(** ** Horizontal profile, 128-bit registers *)

Lemma proj_horizontal_ok vec m p rs w h :
  widevec vec -> 0 <= w < W32 -> 0 <= h -> 0 < rs -> h * rs < W32 ->
  (forall j i, 0 <= j < h -> 0 <= i < w ->
     inb m (padd p (j * rs + i)) = true /\ byte (get m (padd p (j * rs + i)))) ->
  exists out, proj_horizontal 1 vec m p rs w h (repeat 0 (Z.to_nat w)) = Ok out /\ length out = Z.to_nat w /\
    forall i, 0 <= i < w -> zth out i = u32 (zsum h (fun j => get m (padd p (j * rs + i)))).
Proof.
  intros Hv Hw Hh Hrs Hsm Hc. unfold proj_horizontal.
  change (16 * Z.of_nat 1) with 16.
  destruct (simd_widths w 16) as (ET & EN & ES & Hq & Hr & Ew); [auto|lia|].
  rewrite ET, EN, ES.
  set (g := fun i j => get m (padd p (j * rs + i))).
  rewrite (walk_iterM (w / 16)) by (try reflexivity; lia).
  match goal with |- exists out, bind (iterM _ _ ?body _) _ = _ /\ _ =>
    destruct (@iterM_inv (list Z) (list Z) (fun q o => length o = Z.to_nat w /\
        forall k, 0 <= k < w -> zth o k = if k <? q * 16 then u32 (zsum h (g k)) else 0)
      body (Z.to_nat (w / 16)) 0 (repeat 0 (Z.to_nat w))) as (o1 & He1 & Hl1 & Ho1)
  end.
  - split; [apply repeat_length|]. intros k Hk. rewrite zth_repeat0. destruct (Z.ltb_spec k (0 * 16)); [lia|reflexivity].
  - intros q o Hq' (Hl & Ho). unfold at_, c0, c1. cbn [combine map nth fst snd]. rewrite walk_rows by (auto; lia).
    set (V := fun j => map (fun i => u32 (zsum j (g i))) (zseq (q * 16) 16)).
    match goal with |- exists t', bind ?x _ = _ /\ _ => assert (Ha : x = Ok (quarters (V h))) end.
    { match goal with |- iterM _ _ ?body _ = _ =>
        destruct (@iterM_inv (list Z) (list reg) (fun j a => a = quarters (V j)) body (Z.to_nat h) 0
                    (repeat (repeat (repeat 0 4) 1) 4)) as (a & Ea & Ha) end.
      - reflexivity.
      - intros j a Hj ->. unfold at_. cbn [combine map nth fst snd].
        replace (padd (padd p (q * 16)) (j * rs)) with (padd (padd p (j * rs)) (q * 16))
          by (rewrite !padd_padd; f_equal; lia).
        rewrite loadr_ok by (intros i Hi; rewrite padd_padd; apply Hc; lia).
        cbn [bind Nat.mul]. rewrite Hv.
        + eexists. split; [reflexivity|].
          rewrite quarters_add by (rewrite ?map_length, ?zseq_length; reflexivity).
          unfold V. rewrite map2_diag. f_equal. apply map_ext. intros i. rewrite zsum_S by lia.
          rewrite Z.add_comm. unfold g at 2. rewrite padd_padd.
          apply ueq_add; [|reflexivity]. apply ueq_u32.
        + rewrite map_length. apply zseq_length.
        + intros x Hx. apply in_map_iff in Hx as (i & <- & Hi). apply zseq_In in Hi. rewrite padd_padd. apply Hc; lia.
      - rewrite Ea, Ha. f_equal. f_equal. f_equal. lia. }
    rewrite Ha. cbn [bind]. clear Ha.
    assert (LV : length (V h) = 16%nat) by (unfold V; rewrite map_length; apply zseq_length).
    destruct (add_all_ok (quarters (V h)) o (q * 16)) as (o' & E & L & Vo); [lia|rewrite quarters_concat by assumption; lia|].
    rewrite quarters_concat, LV in Vo by assumption.
    exists o'. split; [exact E|]. split; [lia|]. intros k Hk. rewrite Vo by lia. rewrite (Ho k Hk).
    destruct (Z.leb_spec (q * 16) k), (Z.ltb_spec k (q * 16 + Z.of_nat 16)), (Z.ltb_spec k (q * 16)),
      (Z.ltb_spec k ((q + 1) * 16)); try lia; cbn [andb]; auto.
    unfold V. rewrite zth_map by lia. rewrite Z.add_0_l. replace (q * 16 + (k - q * 16)) with k by lia. apply ueq_u32.
  - rewrite He1. cbn [bind]. rewrite Z2Nat.id, Z.add_0_l in Ho1 by lia.
    match goal with |- exists out, ?x = _ /\ _ =>
      assert (Et : x = iterM (Z.to_nat (w mod 16)) 0 (fun i => iterM (Z.to_nat h) 0 (fun j s =>
                         vadd s (w / 16 * 16 + i) (g (w / 16 * 16 + i) j))) o1) end.
    { rewrite if_tail.
      - rewrite (walk_iterM (w mod 16)) by (rewrite ?Z.mul_1_r; try reflexivity; lia).
        apply iterM_ext. intros i s Hi. unfold at_, c0, c1. cbn [combine map nth fst snd padd].
        rewrite Z.mul_1_r. rewrite walk_rows by (auto; lia). apply iterM_ext. intros j u Hj.
        unfold at_. cbn [combine map nth fst snd].
        match goal with |- bind (load m ?q) _ = _ => replace q with (padd p (j * rs + (w / 16 * 16 + i)))
          by (unfold padd; cbn [fst snd]; f_equal; lia) end.
        rewrite load_ok by (apply Hc; lia). reflexivity.
      - lia.
      - intros H0. rewrite H0. apply walk_zero. }
    rewrite Et. clear Et.
    destruct (@iterM2_inv (list Z) (list Z)
       (fun i j s => length s = Z.to_nat w /\
          forall k, 0 <= k < w -> zth s k = u32 (if k <? w / 16 * 16 + i then zsum h (g k)
                                                 else if k =? w / 16 * 16 + i then zsum j (g k) else 0))
       (fun i j s => vadd s (w / 16 * 16 + i) (g (w / 16 * 16 + i) j)) (w mod 16) h o1)
      as (s & He & Hl & Hs); try lia.
    + split; [assumption|]. intros k Hk. rewrite Ho1 by assumption.
      destruct (Z.ltb_spec k (w / 16 * 16)), (Z.ltb_spec k (w / 16 * 16 + 0)),
        (Z.eqb_spec k (w / 16 * 16 + 0)); try lia; rewrite ?zsum_0; reflexivity.
    + intros i j s Hi Hj (Hl & Hs).
      destruct (@vadd_ok (list Z) s (w / 16 * 16 + i) (g (w / 16 * 16 + i) j)) as (s' & He & Hl' & Hv'); [lia|].
      exists s'. split; [exact He|]. split; [lia|].
      intros k Hk. rewrite Hv' by lia. rewrite (Hs k Hk).
      destruct (Z.eqb_spec k (w / 16 * 16 + i)) as [->|Hne]; auto.
      destruct (Z.ltb_spec (w / 16 * 16 + i) (w / 16 * 16 + i)); [lia|]. rewrite zsum_S by lia.
      unfold u32. rewrite Zplus_mod_idemp_l. reflexivity.
    + intros i s Hi (Hl & Hs). split; [assumption|]. intros k Hk. rewrite Hs by assumption.
      destruct (Z.ltb_spec k (w / 16 * 16 + i)), (Z.ltb_spec k (w / 16 * 16 + (i + 1))),
        (Z.eqb_spec k (w / 16 * 16 + i)), (Z.eqb_spec k (w / 16 * 16 + (i + 1)));
        try lia; subst; auto.
    + exists s. split; [exact He|]. split; [assumption|]. intros i Hi. rewrite Hs by assumption.
      destruct (Z.ltb_spec i (w / 16 * 16 + w mod 16)); [reflexivity|lia].
Qed.

(** ** Accumulate, 128-bit registers *)

Lemma acc_rows_ok vec m p rs w h r :
  widevec vec -> 0 < w < W32 -> 0 <= h -> 0 < rs -> h * rs < W32 -> Z.of_nat (length r) = w * h ->
  (forall j i, 0 <= j < h -> 0 <= i < w ->
     inb m (padd p (j * rs + i)) = true /\ byte (get m (padd p (j * rs + i)))) ->
  exists r', acc_rows 1 vec m p rs w h r = Ok r' /\ length r' = length r /\
    forall j i, 0 <= j < h -> 0 <= i < w ->
      zth r' (j * w + i) = u32 (zth r (j * w + i) + get m (padd p (j * rs + i))).
Proof.
  intros Hv Hw Hh Hrs Hsm Hlen Hc. unfold acc_rows.
  change (16 * Z.of_nat 1) with 16.
  destruct (simd_widths w 16) as (ET & EN & ES & Hq & Hr & Ew); [lia|lia|].
  rewrite ET, EN, ES. rewrite <- Ew, (u32_small w) by lia.
  set (g := fun j i => get m (padd p (j * rs + i))).
  rewrite walk_rows by (auto; lia).
  set (val := fun k => u32 (zth r k + g (k / w) (k mod w))).
  assert (Hval : forall j i, 0 <= j < h -> 0 <= i < w -> val (j * w + i) = u32 (zth r (j * w + i) + g j i)).
  { intros j i Hj Hi. unfold val. destruct (divmod_flat w j i) as [D1 D2]; [lia|]. rewrite D1, D2. reflexivity. }
  match goal with |- exists r', iterM _ _ ?body _ = _ /\ _ =>
    destruct (@iterM_inv (list Z) (list Z) (fun j o => length o = length r /\
        forall k, 0 <= k < w * h -> zth o k = if k <? j * w then val k else zth r k)
      body (Z.to_nat h) 0 r) as (o & He & Hl & Ho)
  end.
  - split; [reflexivity|]. intros k Hk. destruct (Z.ltb_spec k (0 * w)); [lia|reflexivity].
  - intros j o Hj (Hl & Ho). unfold at_, c0, c1. cbn [combine map nth fst snd].
    rewrite (walk_iterM (w / 16)) by (try reflexivity; lia).
    match goal with |- exists t', bind (iterM _ _ ?body _) _ = _ /\ _ =>
      destruct (@iterM_inv (list Z) (list Z) (fun q o => length o = length r /\
          forall k, 0 <= k < w * h -> zth o k = if k <? j * w + q * 16 then val k else zth r k)
        body (Z.to_nat (w / 16)) 0 o) as (o1 & He1 & Hl1 & Ho1)
    end.
    + split; [assumption|]. intros k Hk. rewrite Z.mul_0_l, Z.add_0_r. auto.
    + intros q a Hq' (Hla & Ha). unfold at_. cbn [combine map nth fst snd padd].
      change (fst p, snd p + j * rs) with (padd p (j * rs)).
      change (fst (padd p (j * rs)), snd (padd p (j * rs)) + q * 16) with (padd (padd p (j * rs)) (q * 16)).
      rewrite Z.add_0_l.
      assert (HR : forall i, q * 16 <= i < q * 16 + 16 -> 0 <= i < w) by (intros; lia).
      rewrite loadr_ok by (intros i Hi; rewrite padd_padd; apply Hc; [lia|apply HR; lia]).
      cbn [bind Nat.mul]. rewrite Hv.
      * set (l := map (fun i => get m (padd (padd p (j * rs)) i)) (zseq (q * 16) (16 + 0))).
        assert (Ll : length l = 16%nat) by (unfold l; rewrite map_length; apply zseq_length).
        assert (Hbound : j * w + q * 16 + 16 <= w * h) by nia.
        destruct (add_all_ok (quarters l) a (j * w + q * 16)) as (o' & E & L & Vo);
          [nia|rewrite quarters_concat by assumption; lia|].
        rewrite quarters_concat, Ll in Vo by assumption.
        exists o'. split; [exact E|]. split; [lia|]. intros k Hk. rewrite Vo by lia. rewrite (Ha k Hk).
        destruct (Z.leb_spec (j * w + q * 16) k), (Z.ltb_spec k (j * w + q * 16 + Z.of_nat 16)),
          (Z.ltb_spec k (j * w + q * 16)), (Z.ltb_spec k (j * w + (q + 1) * 16)); try lia; cbn [andb]; auto.
        unfold l. rewrite zth_map by (change (16 + 0)%nat with 16%nat; lia). rewrite padd_padd.
        replace k with (j * w + (k - j * w)) at 3 by lia. rewrite Hval by lia.
        replace (j * w + (k - j * w)) with k by lia.
        unfold g. do 5 f_equal. lia.
      * rewrite map_length. apply zseq_length.
      * intros x Hx. apply in_map_iff in Hx as (i & <- & Hi). apply zseq_In in Hi. rewrite padd_padd. apply Hc; [lia|].
        apply HR. change (16 + 0)%nat with 16%nat in Hi. lia.
    + rewrite He1. cbn [bind]. rewrite Z2Nat.id, Z.add_0_l in Ho1 by lia.
      match goal with |- exists t', ?x = _ /\ _ =>
        assert (Et : x = iterM (Z.to_nat (w mod 16)) 0 (fun i s =>
                           vadd s (j * w + w / 16 * 16 + i) (g j (w / 16 * 16 + i))) o1) end.
      { rewrite if_tail.
        - rewrite (walk_iterM (w mod 16)) by (rewrite ?Z.mul_1_r; try reflexivity; lia).
          apply iterM_ext. intros i s Hi. unfold at_. cbn [combine map nth fst snd padd].
          rewrite Z.mul_1_r.
          match goal with |- bind (load m ?q) _ = _ => replace q with (padd p (j * rs + (w / 16 * 16 + i)))
            by (unfold padd; cbn [fst snd]; f_equal; lia) end.
          rewrite load_ok by (apply Hc; lia). cbn [bind]. unfold g. f_equal.
        - lia.
        - intros H0. rewrite H0. apply walk_zero. }
      rewrite Et. clear Et.
      match goal with |- exists t', iterM _ _ ?body _ = _ /\ _ =>
        destruct (@iterM_inv (list Z) (list Z) (fun i o => length o = length r /\
            forall k, 0 <= k < w * h -> zth o k = if k <? j * w + w / 16 * 16 + i then val k else zth r k)
          body (Z.to_nat (w mod 16)) 0 o1) as (o2 & He2 & Hl2 & Ho2)
      end.
      * split; [assumption|]. intros k Hk. rewrite Z.add_0_r. auto.
      * intros i a Hi (Hla & Ha).
        assert (Hi2 : 0 <= w / 16 * 16 + i < w) by lia.
        destruct (@vadd_ok (list Z) a (j * w + w / 16 * 16 + i) (g j (w / 16 * 16 + i))) as (a' & E & L & Va); [nia|].
        exists a'. split; [exact E|]. split; [lia|]. intros k Hk. rewrite Va by lia. rewrite (Ha k Hk).
        destruct (Z.eqb_spec k (j * w + w / 16 * 16 + i)) as [->|Hne].
        -- destruct (Z.ltb_spec (j * w + w / 16 * 16 + i) (j * w + w / 16 * 16 + i)); [lia|].
           destruct (Z.ltb_spec (j * w + w / 16 * 16 + i) (j * w + w / 16 * 16 + (i + 1))); [|lia].
           rewrite <- (Z.add_assoc (j * w)). rewrite Hval by lia. reflexivity.
        -- destruct (Z.ltb_spec k (j * w + w / 16 * 16 + i)), (Z.ltb_spec k (j * w + w / 16 * 16 + (i + 1))); try lia; reflexivity.
      * exists o2. split; [exact He2|]. split; [assumption|]. intros k Hk. rewrite Ho2 by assumption.
        replace (j * w + w / 16 * 16 + (0 + Z.of_nat (Z.to_nat (w mod 16)))) with ((j + 1) * w) by lia. reflexivity.
  - exists o. split; [exact He|]. split; [exact Hl|]. intros j i Hj Hi.
    rewrite Ho by nia. rewrite Z2Nat.id by lia. destruct (Z.ltb_spec (j * w + i) ((0 + h) * w)); [|nia].
    apply Hval; assumption.
Qed.

(** ** Dispatch *)

Lemma row_sum_pixels m im x y w j : wf m im -> 0 <= w ->
  zsum (w * icc im) (fun i => get m (padd (origin im x y (icc im)) (j * irs im + i)))
  = zsum w (fun i => zsum (icc im) (fun c => pixel m im (x + i) (y + j) c)).
Proof.
  intros W Hw. pose proof (wf_cc_pos _ _ W) as Hcc.
  rewrite Z.mul_comm, zsum_flat by lia. apply zsum_ext. intros i Hi. apply zsum_ext. intros c Hc.
  unfold pixel. rewrite px_origin. reflexivity.
Qed.

Lemma roi_cells m im x y w h : wf m im -> roi_in im x y w h -> bytes m im ->
  forall j i, 0 <= j < h -> 0 <= i < w * icc im ->
    inb m (padd (origin im x y (icc im)) (j * irs im + i)) = true /\
    byte (get m (padd (origin im x y (icc im)) (j * irs im + i))).
Proof.
  intros W R B j i Hj Hi. pose proof (wf_cc_pos _ _ W) as Hcc. split; [apply (cell_inb m im x y w h); auto|].
  destruct (split_index (icc im) i w) as (A1 & A2 & A3); try lia.
  pose proof (B (x + i / icc im) (y + j) (i mod icc im)) as Hb. unfold pixel in Hb.
  rewrite px_origin, <- A3 in Hb. unfold byte. apply Hb; destruct R; lia.
Qed.

Lemma SimdProjection_vertical b t m im x y w h :
  usable b t -> build_ok b = true ->
  wf m im -> roi_in im x y w h -> bytes m im ->
  exists p, SimdProjectionProfile b t m im x y w h false = Ok p /\ length p = Z.to_nat h /\
    forall j, 0 <= j < h ->
      zth p j = u32 (zsum w (fun i => zsum (icc im) (fun c => pixel m im (x + i) (y + j) c))).
Proof.
  intros Hu Hb W R B.
  assert (Hw0 : 0 < w) by apply R. assert (Hh0 : 0 < h) by apply R.
  pose proof (wf_cc_pos _ _ W) as Hcc.
  assert (Hker : forall t, t <> cpu ->
    exists p, proj_vertical (nlanes t) (proj_vvec t) m (row_ptr im x y (icc im)) (irs im) (u32 (w * icc im)) h
                (repeat 0 (Z.to_nat h)) = Ok p /\ length p = Z.to_nat h /\
      forall j, 0 <= j < h ->
        zth p j = u32 (zsum w (fun i => zsum (icc im) (fun c => pixel m im (x + i) (y + j) c)))).
  { intros t' Ht.
    rewrite (row_ptr_origin m im x y w h) by (auto; lia).
    rewrite (u32_width m im x w) by (auto; first [apply R|lia]).
    pose proof (wf_rs_pos _ _ W). pose proof (roi_rows_small m im x y w h W R).
    pose proof (wf_bounds _ _ W) as (Bw & _ & _ & Bwc).
    destruct (proj_vertical_ok (nlanes t') (proj_vvec t') m (origin im x y (icc im)) (irs im) (w * icc im) h)
      as (p & E & L & V); auto; try lia.
    - apply nlanes_size; assumption.
    - apply proj_vvec_ok.
    - destruct R; nia.
    - apply roi_cells; assumption.
    - exists p. split; [exact E|]. split; [exact L|]. intros j Hj. rewrite V by assumption.
      f_equal. apply row_sum_pixels; [assumption|lia]. }
  assert (Hfin : forall t, t <> cpu -> compiled b t = true -> exists p,
     (if compiled b t then with_mem m (proj_vertical (nlanes t) (proj_vvec t) m (row_ptr im x y (icc im)) (irs im)
        (u32 (w * icc im)) h (repeat 0 (Z.to_nat h))) else Throw m) = Ok p /\ length p = Z.to_nat h /\
      forall j, 0 <= j < h ->
        zth p j = u32 (zsum w (fun i => zsum (icc im) (fun c => pixel m im (x + i) (y + j) c)))).
  { intros t' Ht Hct. destruct (Hker t' Ht) as (p & E & L & V). rewrite Hct, E. exists p. split; [reflexivity|]. auto. }
  unfold SimdProjectionProfile, twice. rewrite (valid_roi_ok m) by assumption.
  destruct (is_cpu t || (u32 (u32 (w * h) * icc im) <? getSimdSize t)) eqn:E1.
  - destruct (is_avx t && b_avx b) eqn:E2; [|apply Projection_vertical; assumption].
    apply andb_true_iff in E2 as [Et Eb].
    destruct (is_cpu sse || (u32 (u32 (w * h) * icc im) <? getSimdSize sse)) eqn:E3;
      [apply Projection_vertical; assumption|].
    apply Hfin; [discriminate|]. apply avx_sse; auto.
  - apply orb_false_iff in E1 as [Et Ew].
    assert (Hn : t <> cpu) by (intros ->; discriminate Et).
    destruct Hu as [Hu|Hu]; [congruence|]. apply Hfin; assumption.
Qed.

Lemma SimdProjection_horizontal b t m im x y w h :
  t = cpu \/ t = sse -> usable b t ->
  wf m im -> roi_in im x y w h -> bytes m im ->
  exists p, SimdProjectionProfile b t m im x y w h true = Ok p /\ length p = Z.to_nat (w * icc im) /\
    forall i c, 0 <= i < w -> 0 <= c < icc im ->
      zth p (i * icc im + c) = u32 (zsum h (fun j => pixel m im (x + i) (y + j) c)).
Proof.
  intros Ht Hu W R B.
  assert (Hw0 : 0 < w) by apply R. assert (Hh0 : 0 < h) by apply R.
  pose proof (wf_cc_pos _ _ W) as Hcc.
  unfold SimdProjectionProfile, twice. rewrite (valid_roi_ok m) by assumption.
  destruct (is_cpu t || (u32 (u32 (w * h) * icc im) <? getSimdSize t)) eqn:E1.
  - assert (E2 : is_avx t = false) by (destruct Ht; subst; reflexivity). rewrite E2. cbn [andb].
    apply Projection_horizontal; assumption.
  - destruct Ht as [->| ->]; [discriminate E1|].
    destruct Hu as [Hu|Hu]; [discriminate|]. rewrite Hu.
    rewrite (row_ptr_origin m im x y w h) by (auto; lia).
    rewrite (u32_width m im x w) by (auto; first [apply R|lia]).
    pose proof (wf_rs_pos _ _ W). pose proof (roi_rows_small m im x y w h W R).
    pose proof (wf_bounds _ _ W) as (Bw & _ & _ & Bwc).
    destruct (proj_horizontal_ok (proj_hvec sse) m (origin im x y (icc im)) (irs im) (w * icc im) h)
      as (p & E & L & V); auto; try lia.
    + exact widen4_wide.
    + destruct R; nia.
    + apply roi_cells; assumption.
    + cbn [nlanes]. rewrite E. exists p. split; [reflexivity|]. split; [exact L|]. intros i c Hi Hc'.
      pose proof (join_index (icc im) i c w Hi Hc').
      rewrite V by lia. f_equal. apply zsum_ext. intros j Hj. unfold pixel. rewrite px_origin. reflexivity.
Qed.

Lemma SimdProjection_rejects b t m im x y w h hz :
  valid_roi im x y w h = false -> SimdProjectionProfile b t m im x y w h hz = Throw m.
Proof.
  intros Hg. unfold SimdProjectionProfile, twice, ProjectionProfile. rewrite Hg.
  repeat match goal with |- context [if ?c then _ else _] => destruct c; auto end.
Qed.

Lemma SimdAccumulate_value b t m im x y w h r :
  t = cpu \/ t = sse \/ t = neon -> usable b t ->
  wf m im -> icc im = 1 -> roi_in im x y w h -> bytes m im -> Z.of_nat (length r) = w * h ->
  exists r', SimdAccumulate b t m im x y w h r = Ok r' /\ length r' = length r /\
    forall i j, 0 <= i < w -> 0 <= j < h ->
      zth r' (j * w + i) = u32 (zth r (j * w + i) + pixel m im (x + i) (y + j) 0).
Proof.
  intros Ht Hu W C R B Hlen.
  assert (Hw0 : 0 < w) by apply R. assert (Hh0 : 0 < h) by apply R.
  assert (Hsc : exists r', Accumulate m im x y w h r = Ok r' /\ length r' = length r /\
    forall i j, 0 <= i < w -> 0 <= j < h ->
      zth r' (j * w + i) = u32 (zth r (j * w + i) + pixel m im (x + i) (y + j) 0)).
  { destruct (Accumulate_value m im x y w h r W R) as (r' & E & L & V); [rewrite C, Z.mul_1_r; exact Hlen|].
    exists r'. split; [exact E|]. split; [exact L|]. intros i j Hi Hj.
    specialize (V i j 0). rewrite C in V. rewrite !Z.mul_1_r, !Z.add_0_r in V. apply V.
    unfold inside. lia. }
  unfold SimdAccumulate.
  destruct (is_cpu t || (u32 (u32 (w * h) * icc im) <? getSimdSize t)) eqn:E1; [exact Hsc|].
  rewrite (valid_roi_ok m) by assumption. rewrite gray_true by assumption.
  assert (Hn : t <> cpu) by (intros ->; discriminate E1).
  destruct Hu as [Hu|Hu]; [congruence|]. rewrite Hu.
  rewrite (u32_width m im x w) by (auto; first [apply R|lia]).
  pose proof (gray_area m im x y w h W R) as Har.
  rewrite (u32_small (w * icc im * h)) by (rewrite C in *; nia).
  replace (Z.of_nat (length r) =? w * icc im * h) with true
    by (symmetry; apply Z.eqb_eq; rewrite C; lia).
  rewrite (row_ptr_origin m im x y w h) by (auto; lia).
  destruct (OptimiseRoi (w * icc im) h [im]) as [w' h'] eqn:Ho.
  destruct (merged_read m im x y w h w' h' W R B Ho) as (A1 & A2 & A3 & A4 & A5 & A6).
  assert (Hk1 : nlanes t = 1%nat /\ widevec (acc_vec t)).
  { destruct Ht as [->|[->| ->]]; [congruence| |]; split; try reflexivity; [exact widen4_wide|exact neon_widen4_wide]. }
  destruct Hk1 as [-> Hvec].
  assert (Hcase : (w' = w /\ h' = h) \/ (w' = w * h /\ h' = 1 /\ irs im = w)).
  { destruct (OptimiseRoi_cases (w * icc im) h [im]) as [E2|(E2 & _ & E3)]; try nia; rewrite E2 in Ho;
      injection Ho as <- <-; [left; lia|right].
    rewrite (E3 im) by (simpl; auto). rewrite C. nia. }
  assert (Hwh : w' * h' = w * h) by (destruct Hcase as [[-> ->]|(-> & -> & _)]; lia).
  destruct (acc_rows_ok (acc_vec t) m (origin im x y (icc im)) (irs im) w' h' r) as (r' & E & L & V); auto; try lia.
  exists r'. split; [exact E|]. split; [exact L|]. intros i j Hi Hj.
  unfold pixel. rewrite px_origin, C, Z.mul_1_r, Z.add_0_r. rewrite C in V.
  destruct Hcase as [[-> ->]|(-> & -> & Ers)].
  - apply V; lia.
  - specialize (V 0 (j * w + i) ltac:(lia) ltac:(nia)). rewrite Ers in *. rewrite Z.mul_0_l, Z.add_0_l in V. exact V.
Qed.

Lemma SimdAccumulate_rejects b t m im x y w h r :
  is_gray im = true -> usable b t -> wf m im ->
  valid_roi im x y w h = false \/ (roi_in im x y w h /\ Z.of_nat (length r) <> w * h) ->
  SimdAccumulate b t m im x y w h r = Throw r /\ Accumulate m im x y w h r = Throw r.
Proof.
  intros G Hu W Hg.
  assert (C : icc im = 1) by (unfold is_gray in G; apply Z.eqb_eq in G; exact G).
  destruct Hg as [Hg|[R Hlen]].
  - assert (Hs : Accumulate m im x y w h r = Throw r) by (unfold Accumulate; rewrite Hg; reflexivity).
    split; [|exact Hs]. unfold SimdAccumulate. rewrite Hs, Hg.
    repeat match goal with |- context [if ?c then _ else _] => destruct c; auto end.
  - assert (Hw0 : 0 < w) by apply R. assert (Hh0 : 0 < h) by apply R.
    pose proof (gray_area m im x y w h W R) as Har. rewrite C in Har.
    assert (Hs : Accumulate m im x y w h r = Throw r).
    { unfold Accumulate. rewrite (valid_roi_ok m) by assumption.
      rewrite (u32_width m im x w) by (auto; first [apply R|lia]).
      destruct (OptimiseRoi (w * icc im) h [im]) as [w' h'] eqn:Ho.
      assert (Hwh : w' * h' = w * h).
      { destruct (OptimiseRoi_cases (w * icc im) h [im]) as [E1|(E1 & _)]; try nia; rewrite E1 in Ho;
          injection Ho as <- <-; nia. }
      rewrite Hwh, (u32_small (w * h)) by nia.
      replace (Z.of_nat (length r) =? w * h) with false by (symmetry; apply Z.eqb_neq; exact Hlen).
      reflexivity. }
    split; [|exact Hs]. unfold SimdAccumulate. rewrite Hs.
    rewrite (valid_roi_ok m) by assumption. rewrite G.
    rewrite (u32_width m im x w) by (auto; first [apply R|lia]).
    rewrite (u32_small (w * icc im * h)) by nia.
    replace (Z.of_nat (length r) =? w * icc im * h) with false by (symmetry; apply Z.eqb_neq; rewrite C; lia).
    destruct (is_cpu t || _); reflexivity.
Qed.
