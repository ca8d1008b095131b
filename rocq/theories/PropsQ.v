(** Properties C75, C76 and C102 to C106: the Fourier transform. *)
From Coq Require Import ZArith List Bool Lia Reals Lra.
From Verif Require Import Base BaseProofs Image ImgFun Spec Double Edge Filter Arith HaarProofs LightProofs Fft Kiss FftSpec FftSum FftProofs KissProofs FftPipe PropsA PropsP.
Import ListNotations.
Open Scope Z_scope.

(** ** C75 *)

(** Complex multiplication into an array of its own: every number type, any two operands of
    the same size (which may be one and the same). *)
Theorem C75_product A (h : heap A) in1 in2 out a b o :
  cblk in1 = Some a -> cblk in2 = Some b -> cblk out = Some o -> o <> a -> o <> b ->
  0 < cw in1 -> 0 < ch in1 -> cw in1 * ch in1 < W32 ->
  cw in2 = cw in1 -> ch in2 = ch in1 -> cw out = cw in1 -> ch out = ch in1 ->
  alen (h a) = cw in1 * ch in1 -> alen (h b) = cw in1 * ch in1 -> alen (h o) = cw in1 * ch in1 ->
  exists h', complexMultiplication A h in1 in2 out = Ok h' /\
    (forall x, x <> o -> h' x = h x) /\ alen (h' o) = alen (h o) /\
    forall k, 0 <= k < cw in1 * ch in1 ->
      fst (aget (h' o) k) = asub A (amul A (fst (aget (h a) k)) (fst (aget (h b) k))) (amul A (snd (aget (h a) k)) (snd (aget (h b) k))) /\
      snd (aget (h' o) k) = aadd A (amul A (fst (aget (h a) k)) (snd (aget (h b) k))) (amul A (snd (aget (h a) k)) (fst (aget (h b) k))).
Proof.
  intros Ea Eb Eo Noa Nob Hw Hh Hs W2 H2 W3 H3 La Lb Lo.
  unfold complexMultiplication, same_size. rewrite W2, H2, W3, H3, !Z.eqb_refl.
  replace (cw in1 =? 0) with false by lia. replace (ch in1 =? 0) with false by lia. cbn [andb negb].
  rewrite Ea, Eb, Eo. assert (0 < cw in1 * ch in1) by nia. rewrite u32_small by lia.
  destruct (mul_separate A h a b o (cw in1 * ch in1)) as (h' & E & S & L & _ & V); try lia.
  exists h'. split; [exact E|]. split; [exact S|]. split; [exact L|]. intros k Hk. rewrite (V k Hk). split; reflexivity.
Qed.

(** The read-out for even sizes: pixel (x, y) shows the value at the position half the size
    away in both directions, cyclically; this is a permutation of the positions. *)
Theorem C75_readout A pixel_of (h : heap A) c b m ib junk V :
  cblk c = Some b -> 0 < cw c -> 0 < ch c -> cw c mod 2 = 0 -> ch c mod 2 = 0 -> cw c * ch c < W32 ->
  alen (h b) = cw c * ch c ->
  (forall x y, 0 <= x < cw c -> 0 <= y < ch c -> pixel_of (fst (aget (h b) (y * cw c + x))) (cw c * ch c) = Ok (V x y)) ->
  exists m' im, cget A pixel_of h c m ib junk = Ok (m', im) /\ iw im = cw c /\ ih im = ch c /\ icc im = 1 /\
    (forall b', b' <> ib -> m' b' = m b') /\
    (forall x y, 0 <= x < cw c -> 0 <= y < ch c ->
       inb m' (px im x y 0) = true /\
       pixel m' im x y 0 = V ((x + cw c / 2) mod cw c) ((y + ch c / 2) mod ch c)).
Proof.
  destruct c as [cb w hh]. cbn [cblk cw ch]. intros -> Hw Hh Ew Eh Hs Hl HV.
  destruct (cget_even A pixel_of h b w hh m ib junk V) as (m' & E & S & L & P); try assumption; try lia.
  exists m', (mkImage w hh 1 1 w (Some (ib, 0)) 0). split; [exact E|]. do 3 (split; [reflexivity|]). split; [exact S|].
  intros x y Hx Hy. pose proof (flat_lt hh w y x Hy Hx).
  unfold pixel, px, ibase. cbn [idata icc irs fst snd].
  replace (0 + y * w + x * 1 + 0) with (y * w + x) by lia. split.
  - unfold inb, len. cbn [fst snd]. rewrite L. lia.
  - exact (P x y Hx Hy).
Qed.
(** The shift is its own inverse on the positions. *)
Theorem C75_permutation n i : 0 < n -> n mod 2 = 0 -> 0 <= i < n -> ((i + n / 2) mod n + n / 2) mod n = i.
Proof. intros Hn He Hi. exact (half_half n i He Hi). Qed.

(** ** C76 *)

(** The product when the output is the first operand. *)
Definition C76_in_place_claim : Prop :=
  forall (h h' : heap (ieee FLOAT)) in1 in2 a b,
  cblk in1 = Some a -> cblk in2 = Some b -> a <> b -> 0 < cw in1 -> 0 < ch in1 -> cw in1 * ch in1 < W32 ->
  cw in2 = cw in1 -> ch in2 = ch in1 -> alen (h a) = cw in1 * ch in1 -> alen (h b) = cw in1 * ch in1 ->
  complexMultiplication (ieee FLOAT) h in1 in2 in1 = Ok h' ->
  forall k, 0 <= k < cw in1 * ch in1 ->
    snd (aget (h' a) k) = tadd FLOAT (tmul FLOAT (fst (aget (h a) k)) (snd (aget (h b) k))) (tmul FLOAT (snd (aget (h a) k)) (fst (aget (h b) k))).

Definition fl (z : Z) : num := tofZ FLOAT z.
(** i * i, in place: the imaginary part of the result is -1 instead of 0 *)
Definition one_one : heap (ieee FLOAT) := fun _ => mkArr 1 (fun _ => (fl 0, fl 1)).
Theorem C76_in_place_refuted : ~ C76_in_place_claim.
Proof.
  intros H.
  destruct (mul_in_place (ieee FLOAT) one_one 1 2 1) as (h' & E & _ & _ & _ & V); try (cbn; lia); try discriminate.
  specialize (H one_one h' (mkC (Some 1) 1 1) (mkC (Some 2) 1 1) 1 2 eq_refl eq_refl ltac:(discriminate) eq_refl eq_refl eq_refl eq_refl eq_refl eq_refl eq_refl E 0 ltac:(cbn; lia)).
  rewrite (V 0 ltac:(lia)) in H. vm_compute in H. discriminate H.
Qed.

(** Every pixel of the image returned by get() has been written: the contents of the fresh
    image memory do not matter. *)
Definition C76_readout_claim : Prop :=
  forall (h : heap (ieee FLOAT)) c b m ib junk1 junk2 m1 m2 im1 im2,
  cblk c = Some b -> 0 < cw c -> 0 < ch c -> cw c * ch c < W32 -> alen (h b) = cw c * ch c ->
  cget (ieee FLOAT) (float_pixel (fun _ => Ok 0)) h c m ib junk1 = Ok (m1, im1) ->
  cget (ieee FLOAT) (float_pixel (fun _ => Ok 0)) h c m ib junk2 = Ok (m2, im2) ->
  forall x y, 0 <= x < cw c -> 0 <= y < ch c -> pixel m1 im1 x y 0 = pixel m2 im2 x y 0.
(** a 3 x 1 array: column 2 is not written *)
Definition three : heap (ieee FLOAT) := fun _ => mkArr 3 (fun _ => (fl 0, fl 0)).
Definition no_mem : mem := fun _ => mkBlock 0 (fun _ => 0).
Definition three_of (j : Z) : res mem (mem * image) :=
  cget (ieee FLOAT) (float_pixel (fun _ => Ok 0)) three (mkC (Some 1) 3 1) no_mem 5 (fun _ => j).
Lemma three_value j : match three_of j with Ok (m, im) => pixel m im 2 0 0 | _ => -1 end = j.
Proof. vm_compute. reflexivity. Qed.
Theorem C76_readout_refuted : ~ C76_readout_claim.
Proof.
  intros H. pose proof (three_value 7) as V7. pose proof (three_value 9) as V9.
  destruct (three_of 7) as [[m1 im1]| | |] eqn:E7; try discriminate V7.
  destruct (three_of 9) as [[m2 im2]| | |] eqn:E9; try discriminate V9.
  specialize (H three (mkC (Some 1) 3 1) 1 no_mem 5 (fun _ => 7) (fun _ => 9) m1 m2 im1 im2 eq_refl eq_refl eq_refl eq_refl eq_refl E7 E9 2 0 ltac:(cbn; lia) ltac:(cbn; lia)).
  rewrite V7, V9 in H. discriminate H.
Qed.

(** What is true of the call in place: exact arithmetic, second operand with real values only. *)
Theorem C76_real_partial (h : heap exact) in1 in2 a b :
  cblk in1 = Some a -> cblk in2 = Some b -> a <> b -> 0 < cw in1 -> 0 < ch in1 -> cw in1 * ch in1 < W32 ->
  cw in2 = cw in1 -> ch in2 = ch in1 -> alen (h a) = cw in1 * ch in1 -> alen (h b) = cw in1 * ch in1 ->
  (forall k, 0 <= k < cw in1 * ch in1 -> snd (aget (h b) k) = 0%R) ->
  exists h', complexMultiplication exact h in1 in2 in1 = Ok h' /\ (forall x, x <> a -> h' x = h x) /\ alen (h' a) = alen (h a) /\
    forall k, 0 <= k < cw in1 * ch in1 -> aget (h' a) k = cmul (aget (h a) k) (aget (h b) k).
Proof.
  intros Ea Eb Nab Hw Hh Hs W2 H2 La Lb HR.
  unfold complexMultiplication, same_size. rewrite W2, H2, !Z.eqb_refl.
  replace (cw in1 =? 0) with false by lia. replace (ch in1 =? 0) with false by lia. cbn [andb negb].
  rewrite Ea, Eb. assert (0 < cw in1 * ch in1) by nia. rewrite u32_small by lia.
  destruct (mul_in_place exact h a b (cw in1 * ch in1)) as (h' & E & S & L & _ & V); try lia.
  exists h'. split; [exact E|]. split; [exact S|]. split; [exact L|]. intros k Hk. rewrite (V k Hk).
  specialize (HR k Hk). cbn [asub aadd amul exact]. unfold cmul.
  destruct (aget (h a) k) as [x y]. destruct (aget (h b) k) as [u v]. cbn [fst snd] in *. subst v. f_equal; ring.
Qed.

(** ** C106: kissfft *)

(** For every length up to 2^30 the plan is made, the transform returns and its result is the
    discrete Fourier transform (exact arithmetic). *)
Theorem C106_transform inverse n x junk : 1 <= n <= 2 ^ 30 ->
  exists o, kiss_fft exact exact_twiddle inverse n x junk = Ok o /\ alen o = n /\
    forall t, 0 <= t < n -> aget o t =
      csum (upto n) (fun s => cmul (x s) (cis ((if inverse then 1 else -1) * (2 * PI * IZR (s * t) / IZR n)))).
Proof. apply kiss_fft_ok. Qed.
Example C106_hyp : 1 <= 60 <= 2 ^ 30.
Proof. cbn. lia. Qed.
Example C106_factors : kf_factor 60 = Ok [(4, 15); (3, 5); (5, 1)] /\ kf_factor 14 = Ok [(2, 7); (7, 1)].
Proof. split; vm_compute; reflexivity. Qed.

(** ** C102: filtering square images *)

(** The image computed by transforming two images, multiplying the spectra into an array of
    its own, transforming back and reading out (exact arithmetic): pixel (x, y) is the
    circular convolution at the position half the size away. *)
Theorem C102_convolution u m f g ib n : gray m f -> gray m g ->
  iw f = n -> ih f = n -> iw g = n -> ih g = n -> n mod 2 = 0 -> n * n <= 2147483647 ->
  (forall x y, 0 <= x < n -> 0 <= y < n ->
     zconv n n (fun x y => pixel m f x y 0) (fun x y => pixel m g x y 0) x y < 256) ->
  exists m' im, filter_separate u m f g ib = Ok (m', im) /\ iw im = n /\ ih im = n /\ icc im = 1 /\
    (forall b, b <> ib -> m' b = m b) /\
    forall x y, 0 <= x < n -> 0 <= y < n ->
      pixel m' im x y 0 = zconv n n (fun x y => pixel m f x y 0) (fun x y => pixel m g x y 0) ((x + n / 2) mod n) ((y + n / 2) mod n).
Proof.
  intros (Wf & Cf & Bf) (Wg & Cg & Bg) Ew Eh Gw Gh He Hn HV.
  assert (Hp : 0 < n) by (pose proof (wf_w _ _ Wf); lia).
  assert (Hb : forall p q, 0 <= zconv n n (values m f) (values m g) p q).
  { intros p q. apply zconv_nonneg; [exact Hp| |]; intros x y Hx Hy; unfold values.
    - pose proof (Bf x y 0). lia.
    - pose proof (Bg x y 0). lia. }
  destruct (separate_ok u m f g ib) as (m' & im & E & W & H & K & O & V); rewrite ?Ew, ?Eh; try assumption.
  - split; [exact Wf|]. split; [exact Wg|]. split; [exact Cf|]. split; [exact Cg|]. split; congruence.
  - unfold sizes. repeat split; try lia; nia.
  - intros r s Hr Hs. rewrite zconv_square by assumption. split; [apply Hb|]. exact (HV s r Hs Hr).
  - exists m', im. split; [exact E|]. split; [lia|]. split; [lia|]. split; [exact K|]. split; [exact O|].
    intros x y Hx Hy. rewrite V by lia. rewrite Ew, Eh.
    destruct (square_divmod n (half n x) (half n y) (half_range n x Hp)) as (-> & ->).
    rewrite zconv_square by assumption. reflexivity.
Qed.
Print Assumptions C102_convolution.

(** a 4 x 4 image with values 0 and 1, convolved with itself: the values are at most 16 *)
Definition bits : mem := fun b => mkBlock 64 (fun o => (o / 3 + b) mod 2).
Lemma bits_gray b : gray bits (img b 4 4 1 5).
Proof.
  split; [solve_wf|]. split; [reflexivity|]. intros x y c _ _ _. unfold pixel, get, bits. cbn [bget fst snd].
  match goal with |- context [?a mod 2] => pose proof (Z.mod_pos_bound a 2 ltac:(lia)) end. lia.
Qed.
Definition small_conv (w h : Z) (f g : Z -> Z -> Z) : bool :=
  forallb (fun a => zconv w h f g (fst a) (snd a) <? 256) (grid w h).
Lemma small_conv_ok w h f g : small_conv w h f g = true -> forall x y, 0 <= x < w -> 0 <= y < h -> zconv w h f g x y < 256.
Proof.
  unfold small_conv. rewrite forallb_forall. intros H x y Hx Hy.
  specialize (H (x, y)). cbn [fst snd] in H. apply Z.ltb_lt, H. rewrite in_grid. cbn [fst snd]. lia.
Qed.
Example C102_hyp : gray bits (img 1 4 4 1 5) /\ gray bits (img 2 4 4 1 5) /\
  (forall x y, 0 <= x < 4 -> 0 <= y < 4 ->
    zconv 4 4 (fun x y => pixel bits (img 1 4 4 1 5) x y 0) (fun x y => pixel bits (img 2 4 4 1 5) x y 0) x y < 256) /\
  zconv 4 4 (fun x y => pixel bits (img 1 4 4 1 5) x y 0) (fun x y => pixel bits (img 2 4 4 1 5) x y 0) 1 2 = 5.
Proof.
  split; [apply bits_gray|]. split; [apply bits_gray|]. split; [|vm_compute; reflexivity].
  apply small_conv_ok. vm_compute. reflexivity.
Qed.

(** ** C103: the identity of the unit test *)

(** Convolution with the image that is 1 in the middle and 0 elsewhere, multiplied in place:
    the result is the input image. *)
Theorem C103_identity u m f g ib n : gray m f -> gray m g ->
  iw f = n -> ih f = n -> iw g = n -> ih g = n -> n mod 2 = 0 -> n * n <= 2147483647 ->
  (forall x y, 0 <= x < n -> 0 <= y < n -> pixel m g x y 0 = if (x =? n / 2) && (y =? n / 2) then 1 else 0) ->
  exists m' im, filter_in_place u m f g ib = Ok (m', im) /\ iw im = n /\ ih im = n /\ icc im = 1 /\
    (forall b, b <> ib -> m' b = m b) /\
    forall x y, 0 <= x < n -> 0 <= y < n -> pixel m' im x y 0 = pixel m f x y 0.
Proof.
  intros (Wf & Cf & Bf) (Wg & Cg & Bg) Ew Eh Gw Gh He Hn HD.
  assert (Hp : 0 < n) by (pose proof (wf_w _ _ Wf); lia).
  assert (Z1 : forall p q, zconv n n (values m f) (values m g) p q = values m f ((p - n / 2) mod n) ((q - n / 2) mod n)).
  { intros p q. rewrite <- zconv_dirac by assumption. apply zsum_ext. intros [r s] _. cbn [fst snd]. f_equal.
    apply HD; apply Z.mod_pos_bound; exact Hp. }
  destruct (in_place_ok u m f g ib) as (m' & im & E & W & H & K & O & V); rewrite ?Ew, ?Eh; try assumption.
  - split; [exact Wf|]. split; [exact Wg|]. split; [exact Cf|]. split; [exact Cg|]. split; congruence.
  - unfold sizes. repeat split; try lia; nia.
  - intros i t Hi Ht. apply dirac_real; try assumption. intros r s Hr Hs. unfold cflat. rewrite flat_square by lia.
    rewrite HD by assumption. unfold dirac. rewrite andb_comm. reflexivity.
  - intros r s Hr Hs. rewrite zconv_square by assumption. rewrite Z1. unfold values. apply Bf; try lia;
      rewrite ?Ew, ?Eh; apply Z.mod_pos_bound; exact Hp.
  - exists m', im. split; [exact E|]. split; [lia|]. split; [lia|]. split; [exact K|]. split; [exact O|].
    intros x y Hx Hy. rewrite V by lia. rewrite Ew, Eh.
    destruct (square_divmod n (half n x) (half n y) (half_range n x Hp)) as (-> & ->).
    rewrite zconv_square by assumption. rewrite Z1, !half_minus by assumption. reflexivity.
Qed.
Print Assumptions C103_identity.
(** the image 1 in the middle of 4 x 4 *)
Definition peak : mem := fun _ => mkBlock 64 (fun o => if o =? 12 then 1 else 0).
Example C103_hyp : gray peak (img 1 4 4 1 5) /\
  forall x y, 0 <= x < 4 -> 0 <= y < 4 -> pixel peak (img 1 4 4 1 5) x y 0 = if (x =? 4 / 2) && (y =? 4 / 2) then 1 else 0.
Proof.
  split.
  - split; [solve_wf|]. split; [reflexivity|]. intros x y c _ _ _. unfold pixel, get, peak. cbn [bget fst snd].
    match goal with |- context [if ?b then _ else _] => destruct b end; lia.
  - intros x y Hx Hy. unfold pixel, px, ibase, get, peak, img. cbn [bget idata icc irs fst snd].
    assert (Cx : x = 0 \/ x = 1 \/ x = 2 \/ x = 3) by lia. assert (Cy : y = 0 \/ y = 1 \/ y = 2 \/ y = 3) by lia.
    destruct Cx as [->|[->|[->| ->]]]; destruct Cy as [->|[->|[->| ->]]]; vm_compute; reflexivity.
Qed.

(** ** C104: other sizes *)

(** Convolution with the image that is 1 in the middle: every even width and height. *)
Definition C104_claim : Prop :=
  forall u m f g ib m' im, gray m f -> gray m g -> iw g = iw f -> ih g = ih f ->
  iw f mod 2 = 0 -> ih f mod 2 = 0 -> iw f * ih f <= 2147483647 ->
  (forall x y, 0 <= x < iw f -> 0 <= y < ih f -> pixel m g x y 0 = if (x =? iw f / 2) && (y =? ih f / 2) then 1 else 0) ->
  filter_separate u m f g ib = Ok (m', im) ->
  forall x y, 0 <= x < iw f -> 0 <= y < ih f -> pixel m' im x y 0 = pixel m f x y 0.

(** What is computed: the circular convolution of the two arrays read with the height as row
    length instead of the width. *)
Theorem C104_convolution_partial u m f g ib : gray m f -> gray m g -> iw g = iw f -> ih g = ih f ->
  iw f mod 2 = 0 -> ih f mod 2 = 0 -> iw f * ih f <= 2147483647 ->
  let w := iw f in let h := ih f in
  let F := fun r s => pixel m f ((r * h + s) mod w) ((r * h + s) / w) 0 in
  let G := fun r s => pixel m g ((r * h + s) mod w) ((r * h + s) / w) 0 in
  (forall r s, 0 <= r < w -> 0 <= s < h -> zconv w h F G r s < 256) ->
  exists m' im, filter_separate u m f g ib = Ok (m', im) /\ iw im = w /\ ih im = h /\ icc im = 1 /\
    (forall b, b <> ib -> m' b = m b) /\
    forall x y, 0 <= x < w -> 0 <= y < h ->
      let k := (y + h / 2) mod h * w + (x + w / 2) mod w in
      pixel m' im x y 0 = zconv w h F G (k / h) (k mod h).
Proof.
  intros (Wf & Cf & Bf) (Wg & Cg & Bg) Ew Eh He Hh Hn w h F G HV.
  pose proof (wf_w _ _ Wf) as Pw. pose proof (wf_h _ _ Wf) as Ph. fold w h in Pw, Ph, Hn, He, Hh.
  assert (EF : forall r s, F r s = flat m f r s) by reflexivity.
  assert (EG : forall r s, G r s = flat m g r s) by (intros; unfold G, flat, w, h; rewrite Ew, Eh; reflexivity).
  assert (EZ : forall p q, zconv w h F G p q = zconv w h (flat m f) (flat m g) p q).
  { intros p q. apply zsum_ext. intros a _. rewrite EF, EG. reflexivity. }
  assert (Hb : forall im k, bytes m im -> icc im = 1 -> iw im = w -> ih im = h -> 0 <= k < w * h -> 0 <= pixel m im (k mod w) (k / w) 0).
  { intros im k B Ci Wi Hi Hk. destruct (divmod_range w h k Pw Hk) as (A1 & A2 & _).
    pose proof (B (k mod w) (k / w) 0). lia. }
  destruct (separate_ok u m f g ib) as (m' & im & E & Wi & H & K & O & V); try assumption.
  - split; [exact Wf|]. split; [exact Wg|]. split; [exact Cf|]. split; [exact Cg|]. split; congruence.
  - fold w h. unfold sizes. repeat split; try lia; clear - Pw Ph He Hh Hn;
      pose proof (Z.div_mod w 2 ltac:(lia)); pose proof (Z.div_mod h 2 ltac:(lia)); nia.
  - fold w h. intros r s Hr Hs. rewrite <- EZ. split; [|apply HV; assumption].
    apply zsum_nonneg. intros [i t] I. rewrite in_grid in I. cbn [fst snd] in *.
    pose proof (Z.mod_pos_bound (r - i) w Pw) as M1. pose proof (Z.mod_pos_bound (s - t) h Ph) as M2.
    apply Z.mul_nonneg_nonneg; [unfold F|unfold G]; apply Hb; try assumption; try reflexivity; apply flat_lt; lia.
  - exists m', im. split; [exact E|]. split; [exact Wi|]. split; [exact H|]. split; [exact K|]. split; [exact O|].
    intros x y Hx Hy k. rewrite EZ. exact (V x y Hx Hy).
Qed.
Print Assumptions C104_convolution_partial.

(** 4 x 2, 1 in the middle (2, 1), convolved with itself *)
Definition peak42 : mem := fun _ => mkBlock 64 (fun o => if o =? 6 then 1 else 0).
Lemma peak42_gray : gray peak42 (img 1 4 2 1 4).
Proof.
  split; [solve_wf|]. split; [reflexivity|]. intros x y c _ _ _. unfold pixel, get, peak42. cbn [bget fst snd].
  match goal with |- context [if ?b then _ else _] => destruct b end; lia.
Qed.
Definition any : unknown :=
  mkU (fun _ => mkArr 0 (fun _ => (0%R, 0%R))) (fun _ => (0%R, 0%R)) (fun _ => (0%R, 0%R)) (fun _ => 0) (fun _ => UB).
Theorem C104_refuted : ~ C104_claim.
Proof.
  intros H.
  destruct (C104_convolution_partial any peak42 (img 1 4 2 1 4) (img 1 4 2 1 4) 7 peak42_gray peak42_gray)
    as (m' & im & E & _ & _ & _ & _ & V); try reflexivity; try (cbn; lia).
  { change (iw (img 1 4 2 1 4)) with 4. change (ih (img 1 4 2 1 4)) with 2. apply small_conv_ok. vm_compute. reflexivity. }
  specialize (H any peak42 (img 1 4 2 1 4) (img 1 4 2 1 4) 7 m' im peak42_gray peak42_gray eq_refl eq_refl eq_refl eq_refl
    ltac:(cbn; lia)).
  specialize (V 2 0 ltac:(cbn; lia) ltac:(cbn; lia)). cbv zeta in V.
  assert (D : forall x y, 0 <= x < iw (img 1 4 2 1 4) -> 0 <= y < ih (img 1 4 2 1 4) ->
    pixel peak42 (img 1 4 2 1 4) x y 0 = if (x =? iw (img 1 4 2 1 4) / 2) && (y =? ih (img 1 4 2 1 4) / 2) then 1 else 0).
  { cbn [iw ih img]. intros x y Hx Hy.
    assert (Cx : x = 0 \/ x = 1 \/ x = 2 \/ x = 3) by lia. assert (Cy : y = 0 \/ y = 1) by lia.
    destruct Cx as [->|[->|[->| ->]]]; destruct Cy as [->| ->]; vm_compute; reflexivity. }
  specialize (H D E 2 0 ltac:(cbn; lia) ltac:(cbn; lia)). rewrite V in H. vm_compute in H. discriminate H.
Qed.
Print Assumptions C104_refuted.

(** ** C105: memory safety of the array class *)

(** resize( w, h ) followed by get() is defined, for every size. *)
Definition C105_claim : Prop :=
  forall w hh b ib junk ijunk m, 0 < w < W32 -> 0 < hh < W32 ->
  let '(h, c) := cresize (ieee FLOAT) (fun _ => mkArr 0 (fun _ => (fl 0, fl 0))) cnull w hh b junk in
  cget (ieee FLOAT) (float_pixel (fun _ => Ok 0)) h c m ib ijunk <> UB.

Lemma iterM_first {E S} n (g : Z -> S -> res E S) s : (0 < n)%nat -> g 0 s = UB -> iterM n 0 g s = UB.
Proof. intros Hn H. destruct n as [|n]; [lia|]. cbn [iterM]. rewrite H. reflexivity. Qed.

(** 65536 x 65536: the number of elements wraps to 0 *)
Theorem C105_refuted : ~ C105_claim.
Proof.
  intros H. specialize (H 65536 65536 1 2 (fun _ => (fl 0, fl 0)) (fun _ => 0) no_mem ltac:(unfold W32; lia) ltac:(unfold W32; lia)).
  change (cresize (ieee FLOAT) (fun _ => mkArr 0 (fun _ => (fl 0, fl 0))) cnull 65536 65536 1 (fun _ => (fl 0, fl 0)))
    with (callocate (ieee FLOAT) (fun _ => mkArr 0 (fun _ => (fl 0, fl 0))) 1 (fun _ => (fl 0, fl 0)) 0, mkC (Some 1) 65536 65536) in H.
  cbv beta iota in H. apply H. unfold cget. cbn [cblk cw ch]. cbv zeta.
  rewrite iterM_first; [reflexivity|lia|]. apply iterM_first; [lia|]. reflexivity.
Qed.
Print Assumptions C105_refuted.

(** An object that holds as many elements as its width and height say. *)
Definition live {A} (h : heap A) (c : cdata) : Prop :=
  match cblk c with
  | None => cw c = 0 /\ ch c = 0
  | Some b => 0 < cw c /\ 0 < ch c /\ cw c * ch c < W32 /\ alen (h b) = cw c * ch c
  end.

(** Every operation is defined on such objects and leaves such objects, unless resize() is
    asked for 2^32 elements or more; the other arrays are left alone. *)
Theorem C105_resize_partial A (h : heap A) c w hh b junk : live h c -> 0 <= w -> 0 <= hh -> w * hh < W32 ->
  let '(h', c') := cresize A h c w hh b junk in
  live h' c' /\ (0 < w -> 0 < hh -> cw c' = w /\ ch c' = hh) /\
  forall x, cblk c <> Some x -> x <> b -> h' x = h x.
Proof.
  intros L Hw Hh Hs. unfold cresize.
  destruct ((negb (cw c =? w) || negb (ch c =? hh)) && negb (w =? 0) && negb (hh =? 0)) eqn:E.
  - assert (0 < w /\ 0 < hh) as (Pw & Ph) by lia. unfold cclean. split; [|split].
    + unfold live. cbn [cblk cw ch]. unfold callocate. rewrite hset_same. cbn [alen]. rewrite u32_small by nia. auto.
    + cbn [cw ch]. auto.
    + intros x Hx Hb. unfold callocate. rewrite hset_other by exact Hb. unfold put_block.
      destruct (cblk c) as [o|]; [|reflexivity]. apply hset_other. congruence.
  - split; [exact L|]. split; [lia|]. reflexivity.
Qed.

Theorem C105_set_partial A (h : heap A) c m im b junk : wf m im ->
  (icc im <> 1 -> cset_image A h c m im b junk = Throw (h, c)) /\
  (icc im = 1 -> exists h', cset_image A h c m im b junk = Ok (h', mkC (Some b) (iw im) (ih im)) /\
     live h' (mkC (Some b) (iw im) (ih im)) /\ forall x, cblk c <> Some x -> x <> b -> h' x = h x).
Proof.
  intros W. split; intros Hc.
  - unfold cset_image. replace (icc im =? 1) with false by lia. rewrite andb_false_r. reflexivity.
  - destruct (cset_image_ok A h c m im b junk W Hc) as (h' & E & S & L & _). exists h'. split; [exact E|]. split.
    + unfold live. cbn [cblk cw ch]. pose proof (wf_w _ _ W). pose proof (wf_h _ _ W). pose proof (wf_rs _ _ W). pose proof (wf_size _ _ W).
      repeat split; try assumption. nia.
    + intros x Hx Hb. rewrite S by exact Hb. unfold cclean. cbn [fst]. unfold put_block.
      destruct (cblk c) as [o|]; [|reflexivity]. apply hset_other. congruence.
Qed.

Theorem C105_vector_partial A (h : heap A) c v : live h c -> 0 <= alen v ->
  (exists h', cset_vector A h c v = Ok h' /\ live h' c /\
     (forall k, 0 <= k < alen v -> aget (block_of A h' c) k = (aget v k, aZ A 0)) /\
     forall x, cblk c <> Some x -> h' x = h x) \/
  (cset_vector A h c v = Throw h /\ (cblk c = None \/ alen v <> cw c * ch c)).
Proof.
  intros L Hv. unfold cset_vector.
  destruct (negb ((alen v =? 0) || (cw c =? 0) || (ch c =? 0) || negb (alen v =? u32 (cw c * ch c)))) eqn:G.
  2: { right. split; [reflexivity|]. unfold live in L. destruct (cblk c) as [b|]; [right|left; reflexivity].
       destruct L as (L1 & L2 & L3 & L4). assert (0 < cw c * ch c) by nia. rewrite u32_small in G by lia. lia. }
  left. unfold live, block_of, put_block in *. destruct (cblk c) as [b|] eqn:Eb; [|lia].
  destruct L as (L1 & L2 & L3 & L4). assert (0 < cw c * ch c) by nia. rewrite u32_small in * by lia.
  destruct (@iterM_inv (heap A) (arr (cpx A)) (fun j d => alen d = cw c * ch c /\ forall k, 0 <= k < j -> aget d k = (aget v k, aZ A 0))
    (fun k d => do x <- rd v k; wr d k (x, aZ A 0)) (Z.to_nat (cw c * ch c)) 0 (h b)) as (d & E & Ld & Vd).
  - split; [exact L4|]. intros; lia.
  - intros i d Hi (Ld & Vd). rewrite Z2Nat.id in Hi by lia. rewrite rd_ok by lia. cbn [bind]. rewrite wr_ok by lia.
    eexists. split; [reflexivity|]. split; [rewrite alen_aset; exact Ld|]. intros k Hk. rewrite aget_aset.
    destruct (Z.eqb_spec k i) as [->|]; [reflexivity|]. apply Vd. lia.
  - rewrite Z2Nat.id, Z.add_0_l in Vd by lia.
    match type of E with ?l = _ => match goal with |- context [bind ?g _] => change g with l end end.
    rewrite E. cbn [bind]. exists (hset A h b d). split; [reflexivity|].
    rewrite hset_same. split; [auto|]. split; [intros k Hk; apply Vd; lia|]. intros x Hx. apply hset_other. congruence.
Qed.

Theorem C105_get_partial (h : heap (ieee FLOAT)) c m ib junk ijunk : live h c -> (forall r, exists v, junk r = Ok v) ->
  exists m' im, cget (ieee FLOAT) (float_pixel junk) h c m ib ijunk = Ok (m', im) /\ iw im = cw c /\ ih im = ch c.
Proof.
  intros L J. unfold live in L. destruct c as [[b|] w hh]; cbn [cblk cw ch] in *.
  - destruct L as (L1 & L2 & L3 & L4).
    destruct (cget_safe (ieee FLOAT) (float_pixel junk) h b w hh m ib ijunk) as (m' & E); try assumption.
    + apply Z.eq_le_incl. symmetry. exact L4.
    + intros r. unfold float_pixel, cast_to. destruct (dtrunc _) as [z|]; [|apply J].
      destruct ((0 <=? z) && (z <? 256)); [eexists; reflexivity|apply J].
    + exists m', (mkImage w hh 1 1 w (Some (ib, 0)) 0). split; [exact E|]. split; reflexivity.
  - destruct L as (-> & ->). exists m, (mkImage 0 0 1 1 0 None 0). split; [reflexivity|]. split; reflexivity.
Qed.

Theorem C105_multiply_partial A (h : heap A) in1 in2 out : live h in1 -> live h in2 -> live h out ->
  (exists h', complexMultiplication A h in1 in2 out = Ok h' /\ (forall x, alen (h' x) = alen (h x)) /\
     forall x, cblk out <> Some x -> h' x = h x) \/
  (complexMultiplication A h in1 in2 out = Throw h /\
     (cblk in1 = None \/ cw in2 <> cw in1 \/ ch in2 <> ch in1 \/ cw out <> cw in1 \/ ch out <> ch in1)).
Proof.
  intros La Lb Lo. unfold complexMultiplication.
  destruct (same_size (cw in1) (ch in1) (cw in2) (ch in2) && same_size (cw in1) (ch in1) (cw out) (ch out)
        && negb (cw in1 =? 0) && negb (ch in1 =? 0)) eqn:G; unfold same_size in G.
  2: { right. split; [reflexivity|]. unfold live in La. destruct (cblk in1); [right|left; reflexivity]. lia. }
  left. assert (cw in2 = cw in1 /\ ch in2 = ch in1 /\ cw out = cw in1 /\ ch out = ch in1 /\ cw in1 <> 0) as (W2 & H2 & W3 & H3 & W0) by lia.
  clear G. unfold live in *. destruct (cblk in1) as [a|]; [|lia]. destruct (cblk in2) as [b|]; [|lia]. destruct (cblk out) as [o|]; [|lia].
  destruct La as (P1 & P2 & P3 & La). destruct Lb as (_ & _ & _ & Lb). destruct Lo as (_ & _ & _ & Lo).
  rewrite W2, H2 in Lb. rewrite W3, H3 in Lo. assert (0 < cw in1 * ch in1) by nia. rewrite u32_small by lia.
  set (n := cw in1 * ch in1) in *.
  destruct (@iterM_inv (heap A) (heap A) (fun _ g => (forall x, alen (g x) = alen (h x)) /\ forall x, x <> o -> g x = h x)
    (fun k h => mul_step A h a b o k) (Z.to_nat n) 0 h) as (h' & E & L' & S').
  - split; reflexivity.
  - intros i g Hi (L & S). rewrite Z2Nat.id in Hi by lia. unfold mul_step.
    do 3 (rewrite rd_ok by (rewrite L; lia); cbn [bind]). rewrite wr_ok by (rewrite L; lia). cbn [bind].
    set (g1 := hset A g o _). assert (L1 : forall x, alen (g1 x) = alen (h x)).
    { intros x. unfold g1, hset. destruct (Z.eqb_spec x o) as [->|]; [rewrite alen_aset|]; apply L. }
    do 3 (rewrite rd_ok by (rewrite L1; lia); cbn [bind]). rewrite wr_ok by (rewrite L1; lia). cbn [bind].
    eexists. split; [reflexivity|]. split.
    + intros x. unfold hset at 1. destruct (Z.eqb_spec x o) as [->|]; [rewrite alen_aset|]; apply L1.
    + intros x Hx. rewrite hset_other by exact Hx. unfold g1. rewrite hset_other by exact Hx. apply S, Hx.
  - exists h'. split; [exact E|]. split; [exact L'|]. intros x Hx. apply S'. congruence.
Qed.

Theorem C105_transform_partial A fft1 inverse e tmp (h : heap A) inp out : live h inp -> live h out -> 0 < fst e -> 0 < snd e ->
  (exists h', transform A fft1 inverse e tmp h inp out = Ok h' /\ (forall x, alen (h' x) = alen (h x)) /\
     forall x, cblk out <> Some x -> h' x = h x) \/
  (transform A fft1 inverse e tmp h inp out = Throw h /\
     (cw inp <> fst e \/ ch inp <> snd e \/ cw out <> cw inp \/ ch out <> ch inp)).
Proof.
  intros Li Lo E0 E1. unfold transform.
  destruct (same_size (fst e) (snd e) (cw inp) (ch inp) && same_size (cw inp) (ch inp) (cw out) (ch out)) eqn:G; unfold same_size in G.
  2: { right. split; [reflexivity|]. lia. }
  left. assert (cw inp = fst e /\ ch inp = snd e /\ cw out = fst e /\ ch out = snd e) as (W1 & H1 & W2 & H2) by lia.
  unfold live in *. destruct (cblk inp) as [a|]; [|lia]. destruct (cblk out) as [o|]; [|lia].
  destruct Li as (_ & _ & _ & Li). destruct Lo as (_ & _ & _ & Lo). rewrite W1, H1 in Li. rewrite W2, H2 in Lo.
  destruct (kiss_ok A fft1 inverse (fst e) (snd e) tmp (h a) (h o)) as (t & d & E & L & _ & _); try assumption; try lia.
  rewrite E. cbn [bind]. exists (hset A h o d). split; [reflexivity|]. split.
  - intros x. unfold hset. destruct (Z.eqb_spec x o) as [->|]; [exact L|reflexivity].
  - intros x Hx. apply hset_other. congruence.
Qed.
Print Assumptions C105_multiply_partial.
Print Assumptions C105_get_partial.

Example C105_hyp : @live (ieee FLOAT) (fun _ => mkArr 6 (fun _ => (fl 1, fl 2))) (mkC (Some 1) 3 2) /\
  @live (ieee FLOAT) (fun _ => mkArr 6 (fun _ => (fl 1, fl 2))) cnull.
Proof. unfold live. cbn. unfold W32. repeat split; lia. Qed.

(** C75: a case that meets the hypotheses *)
Definition six : heap (ieee FLOAT) := fun b => mkArr 6 (fun k => (fl (k + b), fl 2)).
Definition six_product : num * num :=
  (tsub FLOAT (tmul FLOAT (fl 2) (fl 3)) (tmul FLOAT (fl 2) (fl 2)), tadd FLOAT (tmul FLOAT (fl 2) (fl 2)) (tmul FLOAT (fl 2) (fl 3))).
Lemma six_value : six_product = (fl 2, fl 10).
Proof. vm_compute. reflexivity. Qed.
Example C75_hyp : exists h', complexMultiplication (ieee FLOAT) six (mkC (Some 1) 3 2) (mkC (Some 2) 3 2) (mkC (Some 3) 3 2) = Ok h' /\
  aget (h' 3) 1 = (fl 2, fl 10).
Proof.
  destruct (C75_product (ieee FLOAT) six (mkC (Some 1) 3 2) (mkC (Some 2) 3 2) (mkC (Some 3) 3 2) 1 2 3 eq_refl eq_refl eq_refl)
    as (h' & E & _ & _ & V); try (cbn; lia); try (unfold W32; cbn; lia).
  exists h'. split; [exact E|]. destruct (V 1) as (V1 & V2); [cbn; lia|].
  rewrite (surjective_pairing (aget (h' 3) 1)), V1, V2, <- six_value. reflexivity.
Qed.
Example C75_shift : map (fun x => (x + 6 / 2) mod 6) [0; 1; 2; 3; 4; 5] = [3; 4; 5; 0; 1; 2].
Proof. reflexivity. Qed.

Print Assumptions C75_product.
Print Assumptions C75_readout.
Print Assumptions C75_permutation.
Print Assumptions C76_in_place_refuted.
Print Assumptions C76_readout_refuted.
Print Assumptions C76_real_partial.
Print Assumptions C106_transform.
Print Assumptions C105_resize_partial.
Print Assumptions C105_set_partial.
Print Assumptions C105_vector_partial.
Print Assumptions C105_transform_partial.
