(** The Fourier transform classes as functions of the data they are given. *)
From Coq Require Import ZArith List Bool Lia.
From Verif Require Import Base BaseProofs Image ImgFun Spec Arith HaarProofs ReduceProofs LightProofs Fft.
Import ListNotations.
Open Scope Z_scope.

Lemma flat_lt n k i t : 0 <= i < n -> 0 <= t < k -> 0 <= i * k + t < n * k.
Proof. intros H1 H2. nia. Qed.

Lemma fill2 {E T} n k (F : Z -> Z -> T) (body : Z -> Z -> arr T -> res E (arr T)) out :
  0 <= n -> 0 <= k -> n * k <= alen out ->
  (forall i t o, 0 <= i < n -> 0 <= t < k -> body i t o = wr o (i * k + t) (F i t)) ->
  exists out', iterM (Z.to_nat n) 0 (fun i => iterM (Z.to_nat k) 0 (fun t => body i t)) out = Ok out' /\
    alen out' = alen out /\ forall i t, 0 <= i < n -> 0 <= t < k -> aget out' (i * k + t) = F i t.
Proof.
  intros Hn Hk Hl Hb.
  destruct (@iterM2_inv E (arr T)
    (fun j i o => alen o = alen out /\ forall q p, before k i j p q -> aget o (q * k + p) = F q p)
    body n k out) as (o' & E' & L & V); try assumption.
  - split; [reflexivity|]. intros q p (Hp & [?|[? ?]]); lia.
  - intros j i o Hj Hi (L & V). pose proof (flat_lt n k j i Hj Hi). rewrite Hb, wr_ok by lia.
    eexists. split; [reflexivity|]. split; [exact L|]. intros q p (Hp & Hq). rewrite aget_aset.
    destruct (Z.eqb_spec (q * k + p) (j * k + i)) as [e|e].
    + destruct (flat_inj k p q i j) as [-> ->]; try lia. reflexivity.
    + apply V. split; [exact Hp|]. destruct Hq as [Hq|[-> Hq]]; [left; exact Hq|].
      destruct (Z.eq_dec p i) as [->|]; [contradiction|]. right. split; [reflexivity|lia].
  - intros j o Hj (L & V). split; [exact L|]. intros q p (Hp & Hq). apply V. split; [exact Hp|].
    destruct Hq as [Hq|[-> Hq]]; [|lia]. destruct (Z.eq_dec q j) as [->|]; [right; split; [reflexivity|lia]|left; lia].
  - exists o'. split; [exact E'|]. split; [exact L|]. intros i t Hi Ht. apply V. split; [exact Ht|]. left. lia.
Qed.

Lemma hset_same A (h : heap A) b a : hset A h b a b = a.
Proof. unfold hset. rewrite Z.eqb_refl. reflexivity. Qed.
Lemma hset_other A (h : heap A) b a b' : b' <> b -> hset A h b a b' = h b'.
Proof. intros H. unfold hset. destruct (Z.eqb_spec b' b); [contradiction|reflexivity]. Qed.

Section GENERIC.
Context (A : arith).
Notation heap := (heap A).

(** ** Transforms *)
Section KISS.
Context (fft1 : bool -> Z -> (Z -> cpx A) -> (Z -> cpx A)).

Lemma stage_ok inv d st (bi bo : arr (cpx A)) : 0 <= d -> 0 <= st -> st * d <= alen bi -> st * d <= alen bo ->
  exists o, stage A fft1 inv d st bi bo = Ok o /\ alen o = alen bo /\
    forall i t, 0 <= i < st -> 0 <= t < d -> aget o (i * d + t) = fft1 inv d (fun s => aget bi (i + s * st)) t.
Proof.
  intros Hd Hs Hi Ho. unfold stage.
  rewrite (iterM_ext (Z.to_nat st) 0 _ (fun i => iterM (Z.to_nat d) 0 (fun t o =>
     wr o (i * d + t) (fft1 inv d (fun s => aget bi (i + s * st)) t)))).
  - apply (fill2 st d (fun i t => fft1 inv d (fun s => aget bi (i + s * st)) t)); auto.
  - intros i o Hr.
    destruct (@iterM_inv heap unit (fun _ _ => True) (fun s _ => do _ <- rd bi (i + s * st); Ok tt) (Z.to_nat d) 0 tt I) as ([] & E & _).
    + intros s u Hs' _. rewrite rd_ok by nia. exists tt. split; reflexivity || exact I.
    + rewrite E. reflexivity.
Qed.

(** The two stages: a transform of size d0 along the slow index of the first reading of the
    array, then one of size d1. *)
Lemma kiss_ok inv d0 d1 tmp (fi fo : arr (cpx A)) : 0 < d0 -> 0 < d1 -> d0 * d1 <= alen fi -> d0 * d1 <= alen fo ->
  exists t o, kiss_fftnd A fft1 inv d0 d1 tmp fi fo = Ok o /\ alen o = alen fo /\
    (forall s i, 0 <= s < d1 -> 0 <= i < d0 -> aget t (s * d0 + i) = fft1 inv d0 (fun r => aget fi (s + r * d1)) i) /\
    (forall i u, 0 <= i < d0 -> 0 <= u < d1 -> aget o (i * d1 + u) = fft1 inv d1 (fun s => aget t (i + s * d0)) u).
Proof.
  intros H0 H1 Hi Ho. unfold kiss_fftnd.
  replace (d0 * d1 / d0) with d1 by (rewrite Z.mul_comm, Z.div_mul by lia; reflexivity).
  rewrite Z.div_mul by lia.
  destruct (stage_ok inv d0 d1 fi (mkArr (d0 * d1) tmp)) as (t & Et & Lt & Vt); cbn [alen] in *; try lia.
  destruct (stage_ok inv d1 d0 t fo) as (o & Eo & Lo & Vo); try lia.
  exists t, o. rewrite Et. cbn [bind]. rewrite Eo. auto.
Qed.
End KISS.

(** ** Multiplication *)
Lemma mul_separate (h : heap) a b o n :
  o <> a -> o <> b -> 0 <= n -> n <= alen (h a) -> n <= alen (h b) -> n <= alen (h o) ->
  exists h', iterM (Z.to_nat n) 0 (fun k h => mul_step A h a b o k) h = Ok h' /\
    (forall x, x <> o -> h' x = h x) /\ alen (h' o) = alen (h o) /\
    (forall k, ~ 0 <= k < n -> aget (h' o) k = aget (h o) k) /\
    forall k, 0 <= k < n -> let x := aget (h a) k in let y := aget (h b) k in
      aget (h' o) k = (asub A (amul A (fst x) (fst y)) (amul A (snd x) (snd y)),
                       aadd A (amul A (fst x) (snd y)) (amul A (snd x) (fst y))).
Proof.
  intros Ha Hb Hn La Lb Lo.
  destruct (@iterM_inv heap heap (fun j g => (forall x, x <> o -> g x = h x) /\ alen (g o) = alen (h o) /\
    (forall k, ~ 0 <= k < j -> aget (g o) k = aget (h o) k) /\
    forall k, 0 <= k < j -> let x := aget (h a) k in let y := aget (h b) k in
      aget (g o) k = (asub A (amul A (fst x) (fst y)) (amul A (snd x) (snd y)),
                       aadd A (amul A (fst x) (snd y)) (amul A (snd x) (fst y))))
    (fun k h => mul_step A h a b o k) (Z.to_nat n) 0 h) as (h' & E & P).
  - repeat split; auto; intros; lia.
  - intros i g Hi (S & L & U & V). rewrite Z2Nat.id in Hi by lia. unfold mul_step.
    rewrite (S a), (S b) by auto.
    do 3 (rewrite rd_ok by lia; cbn [bind]). rewrite wr_ok by lia. cbn [bind].
    rewrite !hset_same, !hset_other by auto. rewrite (S a), (S b) by auto.
    do 3 (rewrite rd_ok by (rewrite ?alen_aset; lia); cbn [bind]). rewrite wr_ok by (rewrite ?alen_aset; lia). cbn [bind].
    eexists. split; [reflexivity|]. split; [|split; [|split]].
    + intros x Hx. rewrite !hset_other by exact Hx. apply S, Hx.
    + rewrite hset_same, !alen_aset. exact L.
    + intros k Hk. rewrite hset_same, !aget_aset. destruct (Z.eqb_spec k i); [lia|]. apply U. lia.
    + intros k Hk. rewrite hset_same, !aget_aset. destruct (Z.eqb_spec k i) as [->|].
      * cbv zeta. rewrite Z.eqb_refl. reflexivity.
      * apply V. lia.
  - rewrite Z2Nat.id in P by lia. exists h'. split; [exact E|]. rewrite Z.add_0_l in P. exact P.
Qed.

(** With the first operand as the output the new real part is used for the imaginary one. *)
Lemma mul_in_place (h : heap) a b n :
  a <> b -> 0 <= n -> n <= alen (h a) -> n <= alen (h b) ->
  exists h', iterM (Z.to_nat n) 0 (fun k h => mul_step A h a b a k) h = Ok h' /\
    (forall x, x <> a -> h' x = h x) /\ alen (h' a) = alen (h a) /\
    (forall k, ~ 0 <= k < n -> aget (h' a) k = aget (h a) k) /\
    forall k, 0 <= k < n -> let x := aget (h a) k in let y := aget (h b) k in
      let r := asub A (amul A (fst x) (fst y)) (amul A (snd x) (snd y)) in
      aget (h' a) k = (r, aadd A (amul A r (snd y)) (amul A (snd x) (fst y))).
Proof.
  intros Hb Hn La Lb.
  destruct (@iterM_inv heap heap (fun j g => (forall x, x <> a -> g x = h x) /\ alen (g a) = alen (h a) /\
    (forall k, ~ 0 <= k < j -> aget (g a) k = aget (h a) k) /\
    forall k, 0 <= k < j -> let x := aget (h a) k in let y := aget (h b) k in
      let r := asub A (amul A (fst x) (fst y)) (amul A (snd x) (snd y)) in
      aget (g a) k = (r, aadd A (amul A r (snd y)) (amul A (snd x) (fst y))))
    (fun k h => mul_step A h a b a k) (Z.to_nat n) 0 h) as (h' & E & P).
  - repeat split; auto; intros; lia.
  - intros i g Hi (S & L & U & V). rewrite Z2Nat.id in Hi by lia. unfold mul_step.
    rewrite (S b) by auto.
    repeat (rewrite rd_ok by lia; cbn [bind]). rewrite wr_ok by lia. cbn [bind].
    rewrite !hset_same, !hset_other by auto. rewrite (S b) by auto.
    repeat (rewrite rd_ok by (rewrite ?alen_aset; lia); cbn [bind]). rewrite wr_ok by (rewrite ?alen_aset; lia). cbn [bind].
    eexists. split; [reflexivity|]. split; [|split; [|split]].
    + intros x Hx. rewrite !hset_other by exact Hx. apply S, Hx.
    + rewrite hset_same, !alen_aset. exact L.
    + intros k Hk. rewrite hset_same, !aget_aset. destruct (Z.eqb_spec k i); [lia|]. apply U. lia.
    + intros k Hk. rewrite hset_same, !aget_aset. destruct (Z.eqb_spec k i) as [->|].
      * cbv zeta. rewrite Z.eqb_refl. rewrite U by lia. reflexivity.
      * apply V. lia.
  - rewrite Z2Nat.id in P by lia. exists h'. split; [exact E|]. rewrite Z.add_0_l in P. exact P.
Qed.

(** ** Conversion from an image *)
Lemma cset_image_ok (h : heap) c m im b junk : wf m im -> icc im = 1 ->
  exists h', cset_image A h c m im b junk = Ok (h', mkC (Some b) (iw im) (ih im)) /\
    (forall b', b' <> b -> h' b' = fst (cclean A h c) b') /\ alen (h' b) = iw im * ih im /\
    forall x y, 0 <= x < iw im -> 0 <= y < ih im -> aget (h' b) (y * iw im + x) = (aZ A (pixel m im x y 0), aZ A 0).
Proof.
  intros W Hc. pose proof (area_small m im W) as Ha. pose proof (wf_w _ _ W). pose proof (wf_h _ _ W).
  unfold cset_image. rewrite (ImgLemmas.wf_not_empty _ _ W), Hc. cbn [negb andb Z.eqb Pos.eqb].
  destruct (cclean A h c) as [h0 c0']. cbn [fst].
  rewrite (full_walk m im) by assumption. cbn [block_of put_block cblk]. unfold callocate. rewrite hset_same. cbv beta.
  rewrite (u32_small (iw im * ih im)) by lia.
  destruct (@iterM2_inv (heap * cdata) (Z * arr (cpx A))
    (fun j i s => fst s = j * iw im + i /\ alen (snd s) = iw im * ih im /\
       forall q p, before (iw im) i j p q -> aget (snd s) (q * iw im + p) = (aZ A (pixel m im p q 0), aZ A 0))
    (fun j i s => do v <- load m (c0 [padd (dataptr im) (j * irs im + i)]);
                  do d <- wr (snd s) (fst s) (aZ A v, aZ A 0); Ok (fst s + 1, d))
    (ih im) (iw im) (0, mkArr (iw im * ih im) junk)) as ([k d] & E & P1 & P2 & P3); try lia.
  - split; [reflexivity|]. split; [reflexivity|]. intros q p (? & [?|[? ?]]); lia.
  - intros j i [k d] Hj Hi (K & L & V). cbn [fst snd] in *. subst k.
    unfold c0. cbn [hd nth].
    pose proof (smp_inb m im i j W Hi Hj) as Hin.
    unfold load. rewrite Hin.
    cbn [bind]. pose proof (flat_lt (ih im) (iw im) j i Hj Hi). rewrite wr_ok by lia. cbn [bind].
    eexists. split; [reflexivity|]. cbn [fst snd]. split; [lia|]. split; [exact L|].
    intros q p (Hp & Hq). rewrite aget_aset.
    destruct (Z.eqb_spec (q * iw im + p) (j * iw im + i)) as [e|e].
    + destruct (flat_inj (iw im) p q i j) as [-> ->]; try lia.
      rewrite <- (smp_pixel m im i j W Hc). reflexivity.
    + apply V. split; [exact Hp|]. destruct Hq as [Hq|[-> Hq]]; [left; exact Hq|].
      destruct (Z.eq_dec p i) as [->|]; [contradiction|]. right. split; [reflexivity|lia].
  - intros j [k d] Hj (K & L & V). cbn [fst snd] in *. split; [lia|]. split; [exact L|].
    intros q p (Hp & Hq). apply V. split; [exact Hp|].
    destruct Hq as [Hq|[-> Hq]]; [|lia]. destruct (Z.eq_dec q j) as [->|]; [right; split; [reflexivity|lia]|left; lia].
  - match type of E with ?l = _ => match goal with |- context [bind ?g _] => change g with l end end. rewrite E. cbn [bind fst snd] in *. eexists. split; [reflexivity|]. rewrite hset_same. split; [|split; [exact P2|]].
    + intros b' Hb. rewrite !hset_other by exact Hb. reflexivity.
    + intros x y Hx Hy. apply P3. split; [exact Hx|]. left. lia.
Qed.
End GENERIC.

(** ** Conversion to an image *)

(** The cyclic shift by half the size, for an even size *)
Definition half (n i : Z) : Z := (i + n / 2) mod n.
Lemma half_range n i : 0 < n -> 0 <= half n i < n.
Proof. intros. apply Z.mod_pos_bound. assumption. Qed.
Lemma half_code n i : n mod 2 = 0 -> 0 <= i < n -> n < W32 ->
  (if i <? n / 2 then u32 (n / 2 + i) else u32 (i - n / 2)) = half n i.
Proof.
  intros Hn Hi Hw. assert (n = 2 * (n / 2)) by (rewrite (Z.div_mod n 2) at 1; lia).
  unfold half. destruct (Z.ltb_spec i (n / 2)); rewrite u32_small by lia.
  - rewrite Z.mod_small by lia. lia.
  - apply (Z.mod_unique _ _ 1); lia.
Qed.
Lemma half_half n i : n mod 2 = 0 -> 0 <= i < n -> half n (half n i) = i.
Proof.
  intros Hn Hi. assert (n = 2 * (n / 2)) by (rewrite (Z.div_mod n 2) at 1; lia).
  unfold half. rewrite Zplus_mod_idemp_l. replace (i + n / 2 + n / 2) with (i + 1 * n) by lia.
  rewrite Z_mod_plus_full. apply Z.mod_small, Hi.
Qed.

Lemma area_le w h : 0 < w -> 0 < h -> w <= w * h /\ h <= w * h.
Proof. intros. split; nia. Qed.

Lemma cget_even A pixel (h : heap A) b w hh m ib junk V :
  0 < w -> 0 < hh -> w mod 2 = 0 -> hh mod 2 = 0 -> w * hh < W32 -> w * hh <= alen (h b) ->
  (forall x y, 0 <= x < w -> 0 <= y < hh -> pixel (fst (aget (h b) (y * w + x))) (w * hh) = Ok (V x y)) ->
  exists m', cget A pixel h (mkC (Some b) w hh) m ib junk = Ok (m', mkImage w hh 1 1 w (Some (ib, 0)) 0) /\
    (forall b', b' <> ib -> m' b' = m b') /\ blen (m' ib) = hh * w /\
    forall x y, 0 <= x < w -> 0 <= y < hh -> bget (m' ib) (y * w + x) = V (half w x) (half hh y).
Proof.
  intros Hw Hh Ew Eh Hs Hl HV. destruct (area_le w hh Hw Hh) as [Aw Ah].
  unfold cget. cbn [cblk cw ch]. rewrite (u32_small (w * hh)) by lia.
  set (m0 := fun b' => if b' =? ib then mkBlock (hh * w) junk else m b').
  destruct (@iterM2_inv mem mem
    (fun j i m' => (forall b', b' <> ib -> m' b' = m b') /\ blen (m' ib) = hh * w /\
       forall q p, before w i j p q -> bget (m' ib) (half hh q * w + half w p) = V p q)
    (fun inY inX m =>
       let outX := if inX <? w / 2 then u32 (w / 2 + inX) else u32 (inX - w / 2) in
       do z <- rd (h b) (u32 (u32 (inY * w) + inX));
       do v <- pixel (fst z) (w * hh);
       store m (ib, u32 (u32 ((if inY <? hh / 2 then u32 (hh / 2 + inY) else u32 (inY - hh / 2)) * w) + outX)) v)
    hh w m0) as (m' & E & P1 & P2 & P3); try lia.
  - unfold m0. rewrite Z.eqb_refl. split; [|split; [reflexivity|]].
    + intros b' Hb. destruct (Z.eqb_spec b' ib); [contradiction|reflexivity].
    + intros q p (? & [?|[? ?]]); lia.
  - intros j i m1 Hj Hi (S & L & U). cbv zeta. rewrite !half_code by (assumption || lia).
    pose proof (flat_lt hh w j i Hj Hi) as B1. pose proof (half_range w i Hw). pose proof (half_range hh j Hh).
    pose proof (flat_lt hh w (half hh j) (half w i) ltac:(assumption) ltac:(assumption)) as B2.
    assert (0 <= j * w) by (apply Z.mul_nonneg_nonneg; lia). assert (0 <= half hh j * w) by (apply Z.mul_nonneg_nonneg; lia).
    rewrite (u32_small (j * w)), (u32_small (half hh j * w)) by lia.
    rewrite (u32_small (j * w + i)), (u32_small (half hh j * w + half w i)) by lia.
    rewrite rd_ok by lia. cbn [bind]. rewrite HV by assumption. cbn [bind].
    unfold store, inb, len. cbn [fst snd]. rewrite L. replace (_ && _) with true by lia.
    eexists. split; [reflexivity|]. split; [|split].
    + intros b' Hb. unfold upd. cbn [fst]. destruct (Z.eqb_spec b' ib); [contradiction|]. apply S, Hb.
    + unfold upd. cbn [fst]. rewrite Z.eqb_refl. exact L.
    + intros q p (Hp & Hq). unfold upd. cbn [fst snd]. rewrite Z.eqb_refl. cbn [bget].
      destruct (Z.eqb_spec (half hh q * w + half w p) (half hh j * w + half w i)) as [e|e].
      * destruct (flat_inj w (half w p) (half hh q) (half w i) (half hh j)) as [e1 e2]; auto using half_range.
        apply (f_equal (half w)) in e1. apply (f_equal (half hh)) in e2. rewrite !half_half in e1, e2 by (assumption || lia).
        subst. reflexivity.
      * apply U. split; [exact Hp|]. destruct Hq as [Hq|[-> Hq]]; [left; exact Hq|].
        destruct (Z.eq_dec p i) as [->|]; [contradiction|]. right. split; [reflexivity|lia].
  - intros j m1 Hj (S & L & U). split; [exact S|]. split; [exact L|]. intros q p (Hp & Hq). apply U. split; [exact Hp|].
    destruct Hq as [Hq|[-> Hq]]; [|lia]. destruct (Z.eq_dec q j) as [->|]; [right; split; [reflexivity|lia]|left; lia].
  - match type of E with ?l = _ => match goal with |- context [bind ?g _] => change g with l end end. rewrite E. cbn [bind]. exists m'. split; [reflexivity|]. split; [exact P1|]. split; [exact P2|].
    intros x y Hx Hy. rewrite <- (P3 (half hh y) (half w x)).
    + rewrite !half_half by assumption. reflexivity.
    + split; [apply half_range, Hw|]. left. apply half_range, Hh.
Qed.

(** ** Exact arithmetic *)
From Coq Require Import Reals Lra.
From Verif Require Import FftSpec FftSum.
Open Scope Z_scope.

Lemma dft_ext inv n x y t : (forall s, 0 <= s < n -> x s = y s) -> dft inv n x t = dft inv n y t.
Proof. intros H. apply csum_ext. intros s Hs. apply in_upto in Hs. rewrite H by exact Hs. reflexivity. Qed.
Lemma dft_dft inv w h f i t : dft inv h (fun s => dft inv w (fun r => f r s) i) t = dft2 inv w h f i t.
Proof.
  unfold dft, dft2, grid. rewrite csum_prod. cbn [fst snd]. rewrite csum_swap. apply csum_ext. intros s _.
  rewrite csum_mul_r. apply csum_ext. intros r _. ring.
Qed.
Lemma dft2_ext inv w h f g i t : (forall r s, 0 <= r < w -> 0 <= s < h -> f r s = g r s) -> dft2 inv w h f i t = dft2 inv w h g i t.
Proof. intros H. apply csum_ext. intros a Ha. apply in_grid in Ha. rewrite H by apply Ha. reflexivity. Qed.

(** kiss_fftnd is the two-dimensional transform for the reading of the array with dims[0] as
    the slow index, when the one-dimensional transforms are right. *)
Lemma kiss_exact fft1 inv d0 d1 tmp (fi fo : arr (cpx exact)) :
  (forall x t, 0 <= t < d0 -> fft1 inv d0 x t = dft inv d0 x t) -> (forall x t, 0 <= t < d1 -> fft1 inv d1 x t = dft inv d1 x t) ->
  0 < d0 -> 0 < d1 -> d0 * d1 <= alen fi -> d0 * d1 <= alen fo ->
  exists o, kiss_fftnd exact fft1 inv d0 d1 tmp fi fo = Ok o /\ alen o = alen fo /\
    forall i u, 0 <= i < d0 -> 0 <= u < d1 -> aget o (i * d1 + u) = dft2 inv d0 d1 (fun r s => aget fi (r * d1 + s)) i u.
Proof.
  intros F0 F1 H0 H1 Hi Ho. destruct (kiss_ok exact fft1 inv d0 d1 tmp fi fo H0 H1 Hi Ho) as (t & o & E & L & V1 & V2).
  exists o. split; [exact E|]. split; [exact L|]. intros i u Hi' Hu. rewrite V2, F1 by assumption.
  rewrite <- dft_dft. apply dft_ext. intros s Hs. rewrite (Z.add_comm i). rewrite V1, F0 by assumption.
  apply dft_ext. intros r Hr. rewrite Z.add_comm. reflexivity.
Qed.

(** ** No undefined behaviour in get() *)
Lemma half_code_range n i : 0 <= i < n -> n < W32 ->
  0 <= (if i <? n / 2 then u32 (n / 2 + i) else u32 (i - n / 2)) < n.
Proof.
  intros Hi Hw. pose proof (Z.div_mod n 2 ltac:(lia)). pose proof (Z.mod_pos_bound n 2 ltac:(lia)).
  destruct (Z.ltb_spec i (n / 2)); rewrite u32_small by lia; lia.
Qed.
Lemma cget_safe A pixel (h : heap A) b w hh m ib junk :
  0 < w -> 0 < hh -> w * hh < W32 -> w * hh <= alen (h b) ->
  (forall r, exists v, pixel r (w * hh) = Ok v) ->
  exists m', cget A pixel h (mkC (Some b) w hh) m ib junk = Ok (m', mkImage w hh 1 1 w (Some (ib, 0)) 0).
Proof.
  intros Hw Hh Hs Hl HV. destruct (area_le w hh Hw Hh) as [Aw Ah].
  unfold cget. cbn [cblk cw ch]. rewrite (u32_small (w * hh)) by lia.
  set (m0 := fun b' => if b' =? ib then mkBlock (hh * w) junk else m b').
  destruct (@iterM2_inv mem mem (fun j i m' => blen (m' ib) = hh * w)
    (fun inY inX m =>
       let outX := if inX <? w / 2 then u32 (w / 2 + inX) else u32 (inX - w / 2) in
       do z <- rd (h b) (u32 (u32 (inY * w) + inX));
       do v <- pixel (fst z) (w * hh);
       store m (ib, u32 (u32 ((if inY <? hh / 2 then u32 (hh / 2 + inY) else u32 (inY - hh / 2)) * w) + outX)) v)
    hh w m0) as (m' & E & _); try lia.
  - unfold m0. rewrite Z.eqb_refl. reflexivity.
  - intros j i m1 Hj Hi L. cbv zeta.
    pose proof (half_code_range hh j Hj ltac:(lia)) as Rj. pose proof (half_code_range w i Hi ltac:(lia)) as Ri.
    set (oj := if j <? hh / 2 then _ else _) in *. set (oi := if i <? w / 2 then _ else _) in *.
    pose proof (flat_lt hh w j i Hj Hi) as B1. pose proof (flat_lt hh w oj oi Rj Ri) as B2.
    assert (0 <= j * w) by (apply Z.mul_nonneg_nonneg; lia). assert (0 <= oj * w) by (apply Z.mul_nonneg_nonneg; lia).
    rewrite (u32_small (j * w)), (u32_small (oj * w)) by lia.
    rewrite (u32_small (j * w + i)), (u32_small (oj * w + oi)) by lia.
    rewrite rd_ok by lia. cbn [bind]. destruct (HV (fst (aget (h b) (j * w + i)))) as (v & ->). cbn [bind].
    unfold store, inb, len. cbn [fst snd]. rewrite L. replace (_ && _) with true by lia.
    eexists. split; [reflexivity|]. unfold upd. cbn [fst]. rewrite Z.eqb_refl. exact L.
  - match type of E with ?l = _ => match goal with |- context [bind ?g _] => change g with l end end.
    rewrite E. cbn [bind]. exists m'. reflexivity.
Qed.

(** The pixel value of an integer in exact arithmetic *)
Lemma exact_pixel_int junk v n : 0 <= v < 256 -> 0 < n -> exact_pixel junk (IZR n * IZR v) n = Ok v.
Proof.
  intros Hv Hn. unfold exact_pixel, trunc_R.
  assert (N : (0 < IZR n)%R) by (apply IZR_lt; lia). assert (V : (0 <= IZR v)%R) by (apply IZR_le; lia).
  replace (IZR n * IZR v / IZR n + / 2)%R with (IZR v + / 2)%R by (field; lra).
  destruct (Rle_dec 0 (IZR v + / 2)) as [H|H]; [|exfalso; lra].
  replace (up (IZR v + / 2)) with (v + 1).
  2:{ apply tech_up; rewrite plus_IZR; lra. }
  replace (v + 1 - 1) with v by lia. replace (_ && _) with true by lia. reflexivity.
Qed.
