(** Filtering with the Fourier classes: the client programs of properties C102 to C104 and
    what they compute in exact arithmetic. *)
From Coq Require Import ZArith List Bool Lia Reals Lra.
From Verif Require Import Base BaseProofs Image ImgFun Spec Double Edge Filter Arith HaarProofs LightProofs Fft Kiss FftSpec FftSum FftProofs KissProofs.
Import ListNotations.
Open Scope Z_scope.

(** ** Programs *)

Definition drop {E T} (r : res E T) : res unit T :=
  match r with Ok v => Ok v | Throw _ => Throw tt | UB => UB | Timeout => Timeout end.

(** What a program finds in memory it has not written: the arrays before the first
    allocation, the elements of fresh arrays, the buffers of kissfft, fresh image memory, and
    the value of a conversion to uint8_t out of range. *)
Record unknown := mkU { uheap : heap exact; uelem : Z -> cpx exact; ubuf : Z -> cpx exact; ubyte : Z -> Z; ucast : R -> res mem Z }.

Definition kiss1 : bool -> Z -> (Z -> cpx exact) -> Z -> cpx exact := kiss_fft1 exact exact_twiddle.

(** FFT::ComplexData a( f ), b( g ); FFT::FFTExecutor e( f.width(), f.height() );
    e.directTransform( a ); e.directTransform( b ); *)
Definition spectra (u : unknown) (m : mem) (f g : image) : res unit (heap exact * cdata * cdata * (Z * Z)) :=
  do a <- drop (cset_image exact (uheap u) cnull m f 1 (uelem u));
  do b <- drop (cset_image exact (fst a) cnull m g 2 (uelem u));
  do e <- executor (iw f) (ih f);
  do h <- drop (transform exact kiss1 false e (ubuf u) (fst b) (snd a) (snd a));
  do h <- drop (transform exact kiss1 false e (ubuf u) h (snd b) (snd b));
  Ok (h, snd a, snd b, e).

(** FFT::ComplexData c; c.resize( f.width(), f.height() ); e.complexMultiplication( a, b, c );
    e.inverseTransform( c ); c.get(); *)
Definition filter_separate (u : unknown) (m : mem) (f g : image) (ib : Z) : res unit (mem * image) :=
  do s <- spectra u m f g;
  let '(h, a, b, e) := s in
  let '(h, c) := cresize exact h cnull (iw f) (ih f) 3 (uelem u) in
  do h <- drop (complexMultiplication exact h a b c);
  do h <- drop (transform exact kiss1 true e (ubuf u) h c c);
  drop (cget exact (exact_pixel (ucast u)) h c m ib (ubyte u)).

(** e.complexMultiplication( a, b, a ); e.inverseTransform( a ); a.get();
    as in test/unit_tests/unit_test_fft.cpp:39-49 *)
Definition filter_in_place (u : unknown) (m : mem) (f g : image) (ib : Z) : res unit (mem * image) :=
  do s <- spectra u m f g;
  let '(h, a, b, e) := s in
  do h <- drop (complexMultiplication exact h a b a);
  do h <- drop (transform exact kiss1 true e (ubuf u) h a a);
  drop (cget exact (exact_pixel (ucast u)) h a m ib (ubyte u)).

(** ** What they compute *)

Lemma transform_ok inv w hh tmp (h : heap exact) a :
  0 < w <= 2 ^ 30 -> 0 < hh <= 2 ^ 30 -> alen (h a) = w * hh ->
  exists h', transform exact kiss1 inv (w, hh) tmp h (mkC (Some a) w hh) (mkC (Some a) w hh) = Ok h' /\
    (forall b, b <> a -> h' b = h b) /\ alen (h' a) = w * hh /\
    forall i t, 0 <= i < w -> 0 <= t < hh -> aget (h' a) (i * hh + t) = dft2 inv w hh (fun r s => aget (h a) (r * hh + s)) i t.
Proof.
  intros Hw Hh L. unfold transform, same_size. cbn [fst snd cw ch cblk]. rewrite !Z.eqb_refl. cbn [andb].
  destruct (kiss_exact kiss1 inv w hh tmp (h a) (h a)) as (o & E & Lo & V); try lia.
  { intros x t Ht. apply kiss_fft1_ok; lia. }
  { intros x t Ht. apply kiss_fft1_ok; lia. }
  match type of E with ?l = _ => match goal with |- context [bind ?g _] => change g with l end end.
  rewrite E. cbn [bind]. exists (hset exact h a o). split; [reflexivity|]. split.
  - intros b Hb. apply hset_other, Hb.
  - rewrite hset_same. split; [lia|exact V].
Qed.

(** The value of the image read as an array with the height as row length *)
Definition flat (m : mem) (f : image) (r s : Z) : Z :=
  pixel m f ((r * ih f + s) mod iw f) ((r * ih f + s) / iw f) 0.
Definition cflat (m : mem) (f : image) (r s : Z) : C := real (IZR (flat m f r s)).

Lemma divmod_range w hh k : 0 < w -> 0 <= k < w * hh -> 0 <= k mod w < w /\ 0 <= k / w < hh /\ k = k / w * w + k mod w.
Proof.
  intros Hw Hk. pose proof (Z.mod_pos_bound k w Hw). pose proof (Z.div_mod k w ltac:(lia)).
  assert (0 <= k / w) by (apply Z.div_pos; lia). assert (k / w < hh) by (apply Z.div_lt_upper_bound; lia). lia.
Qed.

Lemma set_flat (h : heap exact) c m im b junk : wf m im -> icc im = 1 -> cblk c = None ->
  exists h', cset_image exact h c m im b junk = Ok (h', mkC (Some b) (iw im) (ih im)) /\
    (forall b', b' <> b -> h' b' = h b') /\ alen (h' b) = iw im * ih im /\
    forall r s, 0 <= r < iw im -> 0 <= s < ih im -> aget (h' b) (r * ih im + s) = cflat m im r s.
Proof.
  intros W Hc Hn. destruct (cset_image_ok exact h c m im b junk W Hc) as (h' & E & S & L & V).
  exists h'. split; [exact E|]. split.
  { intros b' Hb. rewrite S by exact Hb. unfold cclean, put_block. rewrite Hn. reflexivity. }
  split; [exact L|]. intros r s Hr Hs. pose proof (flat_lt (iw im) (ih im) r s Hr Hs) as Hk.
  destruct (divmod_range (iw im) (ih im) (r * ih im + s)) as (A1 & A2 & A3); [lia|exact Hk|].
  rewrite A3 at 1. rewrite V by assumption. reflexivity.
Qed.

Definition sizes (w hh : Z) : Prop := 0 < w <= 2 ^ 30 /\ 0 < hh <= 2 ^ 30 /\ w * hh <= 2147483647.

Lemma spectra_ok u m f g : wf m f -> wf m g -> icc f = 1 -> icc g = 1 -> iw g = iw f -> ih g = ih f -> sizes (iw f) (ih f) ->
  exists h, spectra u m f g = Ok (h, mkC (Some 1) (iw f) (ih f), mkC (Some 2) (iw f) (ih f), (iw f, ih f)) /\
    alen (h 1) = iw f * ih f /\ alen (h 2) = iw f * ih f /\
    forall i t, 0 <= i < iw f -> 0 <= t < ih f ->
      aget (h 1) (i * ih f + t) = dft2 false (iw f) (ih f) (cflat m f) i t /\
      aget (h 2) (i * ih f + t) = dft2 false (iw f) (ih f) (cflat m g) i t.
Proof.
  intros Wf Wg Cf Cg Ew Eh (Sw & Sh & Sa). unfold spectra.
  destruct (set_flat (uheap u) cnull m f 1 (uelem u) Wf Cf eq_refl) as (h1 & E1 & _ & L1 & V1).
  rewrite E1. cbn [drop bind fst snd].
  destruct (set_flat h1 cnull m g 2 (uelem u) Wg Cg eq_refl) as (h2 & E2 & S2 & L2 & V2).
  rewrite E2. cbn [drop bind fst snd]. rewrite Ew, Eh in *.
  unfold executor. replace (iw f =? 0) with false by lia. replace (ih f =? 0) with false by lia. cbn [orb negb].
  replace ((iw f <=? 2147483647) && (ih f <=? 2147483647) && (iw f * ih f <=? 2147483647)) with true by lia.
  cbn [bind].
  destruct (transform_ok false (iw f) (ih f) (ubuf u) h2 1 Sw Sh) as (h3 & E3 & S3 & L3 & V3).
  { rewrite S2 by discriminate. exact L1. }
  rewrite E3. cbn [drop bind].
  destruct (transform_ok false (iw f) (ih f) (ubuf u) h3 2 Sw Sh) as (h4 & E4 & S4 & L4 & V4).
  { rewrite S3 by discriminate. exact L2. }
  rewrite E4. cbn [drop bind]. exists h4. split; [reflexivity|].
  rewrite (S4 1) by discriminate. split; [exact L3|]. split; [exact L4|]. intros i t Hi Ht. split.
  - rewrite V3 by assumption. apply dft2_ext. intros r s Hr Hs. rewrite S2 by discriminate. apply V1; assumption.
  - rewrite V4 by assumption. apply dft2_ext. intros r s Hr Hs. rewrite S3 by discriminate. apply V2; assumption.
Qed.

(** Sums of integers *)
Lemma csum_zsum {T} (l : list T) f : csum l (fun x => real (IZR (f x))) = real (IZR (zsum l f)).
Proof.
  induction l as [|x l IH]; [reflexivity|]. rewrite csum_cons, IH. unfold zsum. cbn [fold_right].
  rewrite plus_IZR. unfold cadd, real. cbn [fst snd]. f_equal. lra.
Qed.
Lemma real_mul a b : cmul (real a) (real b) = real (a * b).
Proof. unfold cmul, real. cbn [fst snd]. f_equal; ring. Qed.
Lemma conv_zconv w h f g p q :
  convolution w h (fun r s => real (IZR (f r s))) (fun r s => real (IZR (g r s))) p q = real (IZR (zconv w h f g p q)).
Proof.
  unfold convolution, zconv. rewrite <- csum_zsum. apply csum_ext. intros a _. rewrite real_mul, mult_IZR. reflexivity.
Qed.

(** The last two steps, from the product of the spectra in block [o]. *)
Lemma finish_ok u m w hh (h : heap exact) o ib F G : sizes w hh -> w mod 2 = 0 -> hh mod 2 = 0 -> alen (h o) = w * hh ->
  (forall i t, 0 <= i < w -> 0 <= t < hh -> aget (h o) (i * hh + t) =
     cmul (dft2 false w hh (fun r s => real (IZR (F r s))) i t) (dft2 false w hh (fun r s => real (IZR (G r s))) i t)) ->
  (forall r s, 0 <= r < w -> 0 <= s < hh -> 0 <= zconv w hh F G r s < 256) ->
  exists m' im, (do h <- drop (transform exact kiss1 true (w, hh) (ubuf u) h (mkC (Some o) w hh) (mkC (Some o) w hh));
             drop (cget exact (exact_pixel (ucast u)) h (mkC (Some o) w hh) m ib (ubyte u))) = Ok (m', im) /\
    iw im = w /\ ih im = hh /\ icc im = 1 /\
    (forall b, b <> ib -> m' b = m b) /\
    forall x y, 0 <= x < w -> 0 <= y < hh ->
      let k := half hh y * w + half w x in pixel m' im x y 0 = zconv w hh F G (k / hh) (k mod hh).
Proof.
  intros (Sw & Sh & Sa) Ew Eh L HP HV.
  destruct (transform_ok true w hh (ubuf u) h o Sw Sh L) as (h1 & E1 & _ & L1 & V1).
  rewrite E1. cbn [drop bind].
  assert (R1 : forall r s, 0 <= r < w -> 0 <= s < hh -> aget (h1 o) (r * hh + s) = real (IZR (w * hh) * IZR (zconv w hh F G r s))).
  { intros r s Hr Hs. rewrite V1 by assumption.
    rewrite (dft2_ext true w hh _ (fun i t => cmul (dft2 false w hh (fun r s => real (IZR (F r s))) i t) (dft2 false w hh (fun r s => real (IZR (G r s))) i t)))
      by exact HP.
    rewrite convolution_theorem by lia. rewrite conv_zconv, real_mul. reflexivity. }
  destruct (cget_even exact (exact_pixel (ucast u)) h1 o w hh m ib (ubyte u) (fun x y => zconv w hh F G ((y * w + x) / hh) ((y * w + x) mod hh)))
    as (m' & E2 & S2 & L2 & V2); try (unfold W32; lia).
  { intros x y Hx Hy. pose proof (flat_lt hh w y x Hy Hx) as Hk.
    destruct (divmod_range hh w (y * w + x)) as (A1 & A2 & A3); [lia|lia|].
    rewrite A3 at 1. rewrite R1 by assumption. unfold real. cbn [fst]. apply exact_pixel_int; [apply HV; assumption|nia]. }
  rewrite E2. cbn [drop]. exists m', (mkImage w hh 1 1 w (Some (ib, 0)) 0). split; [reflexivity|]. do 3 (split; [reflexivity|]).
  split; [exact S2|].
  intros x y Hx Hy. unfold pixel, px, ibase, get. cbn [idata icc irs fst snd].
  replace (0 + y * w + x * 1 + 0) with (y * w + x) by lia. rewrite V2 by assumption. reflexivity.
Qed.

Definition same_gray (m : mem) (f g : image) : Prop :=
  wf m f /\ wf m g /\ icc f = 1 /\ icc g = 1 /\ iw g = iw f /\ ih g = ih f.

Lemma separate_ok u m f g ib : same_gray m f g -> sizes (iw f) (ih f) -> iw f mod 2 = 0 -> ih f mod 2 = 0 ->
  (forall r s, 0 <= r < iw f -> 0 <= s < ih f -> 0 <= zconv (iw f) (ih f) (flat m f) (flat m g) r s < 256) ->
  exists m' im, filter_separate u m f g ib = Ok (m', im) /\
    iw im = iw f /\ ih im = ih f /\ icc im = 1 /\ (forall b, b <> ib -> m' b = m b) /\
    forall x y, 0 <= x < iw f -> 0 <= y < ih f ->
      let k := half (ih f) y * iw f + half (iw f) x in
      pixel m' im x y 0 = zconv (iw f) (ih f) (flat m f) (flat m g) (k / ih f) (k mod ih f).
Proof.
  intros (Wf & Wg & Cf & Cg & Ew & Eh) S Ew2 Eh2 HV. unfold filter_separate.
  destruct (spectra_ok u m f g Wf Wg Cf Cg Ew Eh S) as (h & E & L1 & L2 & V).
  rewrite E. cbn [bind]. pose proof S as (Sw & Sh & Sa).
  unfold cresize. cbn [cw ch cnull]. replace (negb (0 =? iw f)) with true by lia. replace (iw f =? 0) with false by lia.
  replace (ih f =? 0) with false by lia. cbn [orb andb negb cclean put_block cblk cnull].
  assert (A0 : 0 < iw f * ih f) by nia. assert (W32 = 4294967296) by reflexivity.
  rewrite u32_small by lia.
  set (h3 := callocate exact h 3 (uelem u) (iw f * ih f)).
  assert (O : forall b, b <> 3 -> h3 b = h b) by (intros; apply hset_other; assumption).
  assert (L3 : alen (h3 3) = iw f * ih f) by (unfold h3, callocate; rewrite hset_same; reflexivity).
  unfold complexMultiplication, same_size. cbn [cw ch cblk]. rewrite !Z.eqb_refl.
  replace (iw f =? 0) with false by lia. replace (ih f =? 0) with false by lia. cbn [andb negb].
  rewrite u32_small by lia.
  destruct (mul_separate exact h3 1 2 3 (iw f * ih f)) as (h4 & E4 & S4 & L4 & _ & V4); rewrite ?O by discriminate; try lia.
  rewrite E4. cbn [drop bind].
  apply (finish_ok u m (iw f) (ih f) h4 3 ib (flat m f) (flat m g)); try assumption; try exact (eq_trans L4 L3).
  intros i t Hi Ht. pose proof (flat_lt (iw f) (ih f) i t Hi Ht). rewrite V4 by lia. rewrite !O by discriminate.
    destruct (V i t Hi Ht) as (V5 & V6). unfold cflat in V5, V6.
    match goal with |- context [aget (h 1) ?k] => change (aget (h 1) k) with (aget (h 1) k : C); rewrite V5, V6 end. reflexivity.
Qed.

Lemma in_place_ok u m f g ib : same_gray m f g -> sizes (iw f) (ih f) -> iw f mod 2 = 0 -> ih f mod 2 = 0 ->
  (forall i t, 0 <= i < iw f -> 0 <= t < ih f -> snd (dft2 false (iw f) (ih f) (cflat m g) i t) = 0%R) ->
  (forall r s, 0 <= r < iw f -> 0 <= s < ih f -> 0 <= zconv (iw f) (ih f) (flat m f) (flat m g) r s < 256) ->
  exists m' im, filter_in_place u m f g ib = Ok (m', im) /\
    iw im = iw f /\ ih im = ih f /\ icc im = 1 /\ (forall b, b <> ib -> m' b = m b) /\
    forall x y, 0 <= x < iw f -> 0 <= y < ih f ->
      let k := half (ih f) y * iw f + half (iw f) x in
      pixel m' im x y 0 = zconv (iw f) (ih f) (flat m f) (flat m g) (k / ih f) (k mod ih f).
Proof.
  intros (Wf & Wg & Cf & Cg & Ew & Eh) S Ew2 Eh2 HR HV. unfold filter_in_place.
  destruct (spectra_ok u m f g Wf Wg Cf Cg Ew Eh S) as (h & E & L1 & L2 & V).
  rewrite E. cbn [bind]. pose proof S as (Sw & Sh & Sa).
  assert (A0 : 0 < iw f * ih f) by nia. assert (W32 = 4294967296) by reflexivity.
  unfold complexMultiplication, same_size. cbn [cw ch cblk]. rewrite !Z.eqb_refl.
  replace (iw f =? 0) with false by lia. replace (ih f =? 0) with false by lia. cbn [andb negb].
  rewrite u32_small by lia.
  destruct (mul_in_place exact h 1 2 (iw f * ih f)) as (h4 & E4 & S4 & L4 & _ & V4); try lia.
  rewrite E4. cbn [drop bind].
  apply (finish_ok u m (iw f) (ih f) h4 1 ib (flat m f) (flat m g)); try assumption; try exact (eq_trans L4 L1).
  intros i t Hi Ht. pose proof (flat_lt (iw f) (ih f) i t Hi Ht). rewrite V4 by lia.
    destruct (V i t Hi Ht) as (V5 & V6). specialize (HR i t Hi Ht). unfold cflat in V5, V6, HR.
    match goal with |- context [aget (h 1) ?k] => change (aget (h 1) k) with (aget (h 1) k : C); rewrite V5, V6 end.
    cbn [asub aadd amul exact]. unfold cmul.
    destruct (dft2 false (iw f) (ih f) (fun r s => real (IZR (flat m f r s))) i t) as [a b].
    destruct (dft2 false (iw f) (ih f) (fun r s => real (IZR (flat m g r s))) i t) as [c d].
    cbn [fst snd] in HR |- *. subst d. f_equal; ring.
Qed.

(** ** Square images *)

Lemma zsum_ext {T} (l : list T) f g : (forall x, In x l -> f x = g x) -> zsum l f = zsum l g.
Proof.
  induction l as [|x l IH]; intros H; [reflexivity|]. unfold zsum in *. cbn [fold_right]. rewrite (H x), IH; auto with datatypes.
Qed.
Lemma zsum_nonneg {T} (l : list T) f : (forall x, In x l -> 0 <= f x) -> 0 <= zsum l f.
Proof.
  induction l as [|x l IH]; intros H; unfold zsum in *; cbn [fold_right]; [lia|].
  pose proof (H x (or_introl eq_refl)). specialize (IH (fun y Hy => H y (or_intror Hy))). lia.
Qed.
Lemma zsum_single {T} (l : list T) f a : NoDup l -> In a l -> (forall b, In b l -> b <> a -> f b = 0) -> zsum l f = f a.
Proof.
  intros D I H. apply eq_IZR. pose proof (csum_zsum l f) as E.
  rewrite (csum_single l _ a D I) in E by (intros b Ib Nb; rewrite (H b Ib Nb); reflexivity).
  unfold real in E. injection E as E. symmetry. exact E.
Qed.
Lemma zsum_transpose n f : zsum (grid n n) (fun a => f (fst a) (snd a)) = zsum (grid n n) (fun a => f (snd a) (fst a)).
Proof.
  apply eq_IZR.
  pose proof (csum_zsum (grid n n) (fun a => f (fst a) (snd a))) as E1.
  pose proof (csum_zsum (grid n n) (fun a => f (snd a) (fst a))) as E2.
  unfold grid in E1, E2 |- *. rewrite csum_prod in E1, E2. rewrite csum_swap in E1. cbn [fst snd] in E1, E2.
  rewrite E1 in E2. unfold real in E2. injection E2 as E2. exact E2.
Qed.

Lemma flat_square m f r s : iw f = ih f -> 0 <= s < ih f -> flat m f r s = pixel m f s r 0.
Proof.
  intros E Hs. unfold flat. rewrite E.
  rewrite <- (Z.mod_unique_pos (r * ih f + s) (ih f) r s) by lia.
  rewrite <- (Z.div_unique_pos (r * ih f + s) (ih f) r s) by lia. reflexivity.
Qed.

(** The values of a gray-scale image *)
Definition values (m : mem) (f : image) (x y : Z) : Z := pixel m f x y 0.

Lemma zconv_square m f g n p q : iw f = n -> ih f = n -> iw g = n -> ih g = n -> 0 < n ->
  zconv n n (flat m f) (flat m g) p q = zconv n n (values m f) (values m g) q p.
Proof.
  intros E1 E2 E3 E4 Hn. unfold zconv.
  rewrite (zsum_transpose n (fun r s => values m f r s * values m g ((q - r) mod n) ((p - s) mod n))).
  apply zsum_ext. intros [r s] I. rewrite in_grid in I. cbn [fst snd] in *.
  pose proof (Z.mod_pos_bound (q - s) n Hn).
  rewrite !flat_square by lia. reflexivity.
Qed.

Lemma zconv_nonneg n f g p q : 0 < n -> (forall x y, 0 <= x < n -> 0 <= y < n -> 0 <= f x y) ->
  (forall x y, 0 <= x < n -> 0 <= y < n -> 0 <= g x y) -> 0 <= zconv n n f g p q.
Proof.
  intros Hn Hf Hg. apply zsum_nonneg. intros [r s] I. rewrite in_grid in I. cbn [fst snd] in *.
  apply Z.mul_nonneg_nonneg; [apply Hf; lia|]. apply Hg; apply Z.mod_pos_bound; lia.
Qed.

(** Convolution with the Dirac image of the middle *)
Definition dirac (w h x y : Z) : Z := if (x =? w / 2) && (y =? h / 2) then 1 else 0.

Lemma half_back n p : 0 < n -> n mod 2 = 0 -> forall r, 0 <= r < n -> ((p - r) mod n =? n / 2) = (r =? (p - n / 2) mod n).
Proof.
  intros Hn He r Hr. pose proof (Z.div_mod n 2 ltac:(lia)) as D. rewrite He in D. set (k := n / 2) in *.
  apply Bool.eq_true_iff_eq. rewrite !Z.eqb_eq.
  pose proof (Z.div_mod (p - r) n ltac:(lia)). pose proof (Z.mod_pos_bound (p - r) n Hn).
  pose proof (Z.div_mod (p - k) n ltac:(lia)). pose proof (Z.mod_pos_bound (p - k) n Hn). split; intros E.
  - apply (Z.mod_unique_pos (p - k) n ((p - r) / n) r); lia.
  - symmetry. apply (Z.mod_unique_pos (p - r) n ((p - k) / n) k); lia.
Qed.

Lemma zconv_dirac n f p q : 0 < n -> n mod 2 = 0 ->
  zconv n n f (dirac n n) p q = f ((p - n / 2) mod n) ((q - n / 2) mod n).
Proof.
  intros Hn He. unfold zconv.
  rewrite (zsum_single (grid n n) _ ((p - n / 2) mod n, (q - n / 2) mod n)).
  - cbn [fst snd]. unfold dirac. rewrite !half_back, !Z.eqb_refl by (auto; apply Z.mod_pos_bound; lia). cbn [andb]. lia.
  - apply nodup_grid.
  - rewrite in_grid. cbn [fst snd]. split; apply Z.mod_pos_bound; lia.
  - intros [r s] I N. rewrite in_grid in I. cbn [fst snd] in *. unfold dirac. rewrite !half_back by (auto; lia).
    destruct (Z.eqb_spec r ((p - n / 2) mod n)) as [E1|]; [|cbn [andb]; lia].
    destruct (Z.eqb_spec s ((q - n / 2) mod n)) as [E2|]; [|cbn [andb]; lia].
    exfalso. apply N. rewrite E1, E2. reflexivity.
Qed.

Lemma sin_half n i : 0 < n -> n mod 2 = 0 -> sin (angle false n (n / 2) i) = 0%R.
Proof.
  intros Hn He. pose proof (Z.div_mod n 2 ltac:(lia)) as D. rewrite He, Z.add_0_r in D.
  apply sin_eq_0_1. exists (- i). unfold angle. rewrite D at 2. rewrite !mult_IZR, opp_IZR.
  assert (IZR (n / 2) <> 0%R) by (apply not_0_IZR; lia). field. assumption.
Qed.

Lemma dirac_real n g i t : 0 < n -> n mod 2 = 0 ->
  (forall r s, 0 <= r < n -> 0 <= s < n -> g r s = real (IZR (dirac n n r s))) ->
  snd (dft2 false n n g i t) = 0%R.
Proof.
  intros Hn He Hg. pose proof (Z.div_mod n 2 ltac:(lia)) as D. rewrite He in D. unfold dft2.
  rewrite (csum_single (grid n n) _ (n / 2, n / 2)).
  - cbn [fst snd]. rewrite Hg by lia. unfold cis, cmul. cbn [fst snd]. rewrite !sin_half by assumption.
    unfold real. cbn [fst snd]. ring.
  - apply nodup_grid.
  - rewrite in_grid. cbn [fst snd]. lia.
  - intros [r s] I N. rewrite in_grid in I. cbn [fst snd] in *. rewrite Hg by lia. unfold dirac.
    destruct (Z.eqb_spec r (n / 2)) as [E1|]; [destruct (Z.eqb_spec s (n / 2)) as [E2|]|]; cbn [andb].
    + exfalso. apply N. rewrite E1, E2. reflexivity.
    + csolve.
    + csolve.
Qed.

Lemma half_minus n x : 0 < n -> 0 <= x < n -> (half n x - n / 2) mod n = x.
Proof.
  intros Hn Hx. unfold half. rewrite Zminus_mod_idemp_l. replace (x + n / 2 - n / 2) with x by lia. apply Z.mod_small, Hx.
Qed.
Lemma square_divmod n X Y : 0 <= X < n -> (Y * n + X) / n = Y /\ (Y * n + X) mod n = X.
Proof.
  intros H. split.
  - symmetry. apply (Z.div_unique_pos _ n Y X); lia.
  - symmetry. apply (Z.mod_unique_pos _ n Y X); lia.
Qed.
