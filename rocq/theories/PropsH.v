(** Properties of normalisation, binary morphology, gamma correction and threshold selection:
    C23, C28, C29. *)
From Coq Require Import ZArith List Bool Reals Lia Lra.
From Flocq Require Import Core.
From Verif Require Import Base Image Spec BaseProofs ImgFun ImgLemmas ImgProofs ConvProofs ReduceProofs SafeProofs PropsA PropsB.
From Verif Require Import Morph MorphProofs Double DoubleProofs Tone ToneProofs OtsuProofs.
Import ListNotations.
Open Scope Z_scope.

Ltac Zify.zify_post_hook ::= Z.div_mod_to_equations.

(** ** C23 *)

(** [lo] is the smallest and [hi] the largest sample of the region. *)
Definition range_of (m : mem) (im : image) (x y w h lo hi : Z) : Prop :=
  (forall i j c, inside w h (icc im) i j c -> lo <= pixel m im (x + i) (y + j) c <= hi) /\
  (exists i j c, inside w h (icc im) i j c /\ pixel m im (x + i) (y + j) c = lo) /\
  (exists i j c, inside w h (icc im) i j c /\ pixel m im (x + i) (y + j) c = hi).

(** [f] is the stretch of lo..hi to 0..255: both ends exact, monotone, and every value an
    integer nearest to 255 * (v - lo) / (hi - lo). *)
Definition stretches (f : Z -> Z) (lo hi : Z) : Prop :=
  f lo = 0 /\ f hi = 255 /\
  (forall v v', lo <= v <= v' -> v' <= hi -> f v <= f v') /\
  (forall v, lo <= v <= hi ->
     2 * Z.abs ((hi - lo) * f v - 255 * (v - lo)) <= hi - lo).

Lemma stretch_of_nearest f lo hi : lo < hi -> hi - lo <= 255 ->
  (forall v, lo <= v <= hi -> 0 <= f v < 256 /\ Z.abs (2 * (hi - lo) * f v - 510 * (v - lo)) <= hi - lo) ->
  stretches f lo hi.
Proof.
  intros H1 H2 H. split; [|split; [|split]].
  - destruct (H lo ltac:(lia)) as (Hr & Hn). nia.
  - destruct (H hi ltac:(lia)) as (Hr & Hn). nia.
  - intros v v' Hv Hv'. destruct (Z.eq_dec v v') as [->|Hne]; [lia|].
    destruct (H v ltac:(lia)) as (_ & Hn). destruct (H v' ltac:(lia)) as (_ & Hn'). nia.
  - intros v Hv. destruct (H v Hv) as (_ & Hn).
    lia.
Qed.

(** The full claim, with the C++ standard's meaning of an out-of-range conversion. *)
Definition C23_claim : Prop :=
  forall m inp xi yi out xo yo w h lo hi,
    area m inp xi yi w h -> area m out xo yo w h -> icc inp = 1 -> icc out = 1 -> bytes m inp ->
    disjoint out xo yo w h inp xi yi w h ->
    range_of m inp xi yi w h lo hi -> lo < hi ->
    exists f, stretches f lo hi /\
      writes (Normalize undefined m inp xi yi out xo yo w h) m out xo yo w h
        (fun i j c => f (pixel m inp (xi + i) (yi + j) c)).

(** It fails for nearly all images: the table of 256 values is filled completely, and the
    entries that no sample uses are converted from doubles that do not fit into uint8_t. *)
Definition low_bad (d l : Z) : bool :=
  match dtrunc (norm_value 0 d (- l)) with Some z => (z <? 0) || (255 <? z) | None => true end.
Definition high_bad (d k : Z) : bool :=
  match dtrunc (norm_value 0 d k) with Some z => (z <? 0) || (255 <? z) | None => true end.

Lemma high_is_bad lo hi : 0 <= lo -> lo < hi -> hi < 255 -> high_bad (hi - lo) (255 - lo) = true.
Proof.
  intros H0 H1 H2. destruct (norm_value_near (hi - lo) (255 - lo)) as (r & Hr & He); try lia.
  unfold high_bad. rewrite (isR_trunc _ _ Hr). apply Rabs_le_inv in He. destruct He as (He & _).
  set (d := hi - lo) in *. set (e := bpow radix2 (-35)) in *. assert (He0 : (0 < e < / 1000000)%R) by (unfold e; cbn; lra).
  assert (Hd : (1 <= IZR d)%R) by (apply IZR_le; lia).
  assert (Hq : (255 <= IZR (255 - lo) * (255 / IZR d))%R).
  { apply Rmult_le_reg_r with (IZR d); [lra|]. replace (IZR (255 - lo) * (255 / IZR d) * IZR d)%R with (IZR (255 - lo) * 255)%R by (field; lra).
    rewrite Rmult_comm. apply Rmult_le_compat_r; [lra|]. apply IZR_le. lia. }
  assert (Hq1 : (256 <= IZR (255 - lo) * (255 / IZR d))%R).
  { apply Rmult_le_reg_r with (IZR d); [lra|]. replace (IZR (255 - lo) * (255 / IZR d) * IZR d)%R with (IZR (255 - lo) * 255)%R by (field; lra).
    rewrite <- !mult_IZR. apply IZR_le. lia. }
  rewrite Ztrunc_floor by lra. assert (256 <= Zfloor r) by (apply Zfloor_lub; lra). lia.
Qed.
Lemma low_is_bad lo hi : 2 <= lo -> lo < hi -> hi <= 255 -> low_bad (hi - lo) lo = true.
Proof.
  intros H0 H1 H2. destruct (norm_value_near (hi - lo) (- lo)) as (r & Hr & He); try lia.
  unfold low_bad. rewrite (isR_trunc _ _ Hr). apply Rabs_le_inv in He. destruct He as (_ & He).
  set (d := hi - lo) in *. set (e := bpow radix2 (-35)) in *. assert (He0 : (0 < e < / 1000000)%R) by (unfold e; cbn; lra).
  assert (Hd : (1 <= IZR d)%R) by (apply IZR_le; lia).
  assert (Hq1 : (IZR (- lo) * (255 / IZR d) <= -2)%R).
  { apply Rmult_le_reg_r with (IZR d); [lra|]. replace (IZR (- lo) * (255 / IZR d) * IZR d)%R with (IZR (- lo) * 255)%R by (field; lra).
    rewrite <- !mult_IZR. apply IZR_le. lia. }
  rewrite Ztrunc_ceil by lra. assert (Zceil r <= -1) by (apply Zceil_glb; simpl; lra). lia.
Qed.

Lemma table_undefined (g : Z -> res mem Z) n : forall k t,
  (forall i, (exists z, g i = Ok z) \/ g i = UB) ->
  (exists i, k <= i < k + Z.of_nat n /\ g i = UB) ->
  iterM n k (fun i t => do v <- g i; Ok (t ++ [v])) t = UB.
Proof.
  induction n as [|n IH]; intros k t Hg (i & Hi & Hu); [lia|]. cbn [iterM].
  destruct (Hg k) as [(z & Hz)|Hz]; rewrite Hz; [|reflexivity]. cbn [bind]. apply IH; [exact Hg|].
  exists i. split; [|exact Hu]. destruct (Z.eq_dec i k) as [->|]; [congruence|lia].
Qed.

Lemma cast_bad (d : double) :
  match dtrunc d with Some z => (z <? 0) || (255 <? z) | None => true end = true ->
  @cast_to mem 256 undefined d = UB.
Proof.
  unfold cast_to. destruct (dtrunc d) as [z|]; [|reflexivity]. intros H.
  replace ((0 <=? z) && (z <? 256)) with false; [reflexivity|]. symmetry. apply andb_false_iff. lia.
Qed.

(** Undefined behaviour for every region whose samples differ, unless the largest is 255 and
    the smallest 0 or 1. *)
Theorem C23_standard_undefined m inp xi yi out xo yo w h lo hi :
  area m inp xi yi w h -> area m out xo yo w h -> icc inp = icc out -> bytes m inp ->
  range_of m inp xi yi w h lo hi -> lo < hi -> hi < 255 \/ 2 <= lo ->
  Normalize undefined m inp xi yi out xo yo w h = UB.
Proof.
  intros (W1 & R1) (Wo & Ro) C B (Hall & (il & jl & cl & Hinl & Hvl) & (ih & jh & ch & Hinh & Hvh)) Hlt Hbad.
  assert (BR : roi_bytes m inp xi yi w h) by (intros i j c Hin; apply (bytes_at m inp xi yi w h); auto).
  destruct (min_max_ok m inp xi yi w h (conj W1 R1) BR) as (mn & mx & He & Hb & (i1 & j1 & c1 & Hin1 & Hv1) & (i2 & j2 & c2 & Hin2 & Hv2)).
  assert (E1 : mn = lo).
  { pose proof (Hb il jl cl Hinl). pose proof (Hall i1 j1 c1 Hin1). lia. }
  assert (E2 : mx = hi).
  { pose proof (Hb ih jh ch Hinh). pose proof (Hall i2 j2 c2 Hin2). lia. }
  pose proof (BR il jl cl Hinl) as Bl. pose proof (BR ih jh ch Hinh) as Bh.
  rewrite E1, E2 in He. clear Hb Hv1 Hv2 E1 E2.
  unfold Normalize, valid_roi2, common_cc2.
  rewrite (valid_roi_ok m inp) by assumption. rewrite (valid_roi_ok m out) by assumption. cbn [andb].
  assert (Ecc : (icc inp =? icc out) = true) by (apply Z.eqb_eq; exact C). rewrite Ecc, He. cbn [bind].
  replace ((lo =? 0) && (hi =? 255) || (lo =? hi)) with false.
  2: { symmetry. apply orb_false_iff. split; [|lia]. apply andb_false_iff. lia. }
  unfold norm_table. rewrite table_undefined; [reflexivity| |].
  - intros i. unfold cast_to. destruct (dtrunc _) as [z|]; [|right; reflexivity].
    destruct (_ && _); [left; eauto|right; reflexivity].
  - rewrite Hvl in Bl. rewrite Hvh in Bh. destruct Hbad as [Hbad|Hbad].
    + exists 255. split; [lia|]. apply cast_bad. rewrite norm_shift. apply high_is_bad; lia.
    + exists 0. split; [lia|]. apply cast_bad. rewrite norm_shift. apply low_is_bad; lia.
Qed.

(** Block 1 holds the samples 0, 1, 2, ...; block 2 is the output. *)
Definition steps : mem := fun b => mkBlock 64 (fun o => if b =? 1 then (10 + 20 * o) mod 256 else 0).
Lemma steps_bytes im : bytes steps im.
Proof.
  intros x y c _ _ _. unfold pixel, get, steps. cbn [bget]. destruct (_ =? 1); [|lia].
  apply Z.mod_pos_bound. lia.
Qed.
Lemma steps_range : range_of steps (img 1 3 2 1 3) 0 0 3 2 10 110.
Proof.
  split; [|split].
  - intros i j c (Hi & Hj & Hc). cbn in Hc. assert (c = 0) by lia. subst c.
    assert (Hi' : i = 0 \/ i = 1 \/ i = 2) by lia. assert (Hj' : j = 0 \/ j = 1) by lia.
    destruct Hi' as [-> | [-> | ->]], Hj' as [-> | ->]; vm_compute; split; discriminate.
  - exists 0, 0, 0. split; [unfold inside; cbn; lia|reflexivity].
  - exists 2, 1, 0. split; [unfold inside; cbn; lia|reflexivity].
Qed.

Theorem C23_claim_refuted : ~ C23_claim.
Proof.
  intros H.
  assert (A1 : area steps (img 1 3 2 1 3) 0 0 3 2) by (clear; solve_area).
  assert (A2 : area steps (img 2 3 2 1 3) 0 0 3 2) by (clear; solve_area).
  destruct (H steps (img 1 3 2 1 3) 0 0 (img 2 3 2 1 3) 0 0 3 2 10 110) as (f & _ & m' & E & _); auto.
  - apply steps_bytes.
  - solve_disjoint.
  - apply steps_range.
  - lia.
  - clear H. rewrite (C23_standard_undefined steps _ 0 0 _ 0 0 3 2 10 110 A1 A2 eq_refl (steps_bytes _) steps_range)
      in E by lia. discriminate.
Qed.
Print Assumptions C23_claim_refuted.
Print Assumptions C23_standard_undefined.

(** With a compiler that produces some value for those conversions, as all do, the claim holds;
    the value does not matter.  Any number of channels; in place as well, unless the range is
    already 0..255 (the function then calls memcpy from the region to itself). *)
Theorem C23_normalize_partial junk m inp xi yi out xo yo w h lo hi :
  (forall d, exists z, junk d = Ok z) ->
  area m inp xi yi w h -> area m out xo yo w h -> icc inp = icc out -> bytes m inp ->
  no_hazard out xo yo inp xi yi w h ->
  range_of m inp xi yi w h lo hi -> lo < hi ->
  hi - lo < 255 \/ disjoint out xo yo w h inp xi yi w h ->
  exists f, stretches f lo hi /\
    writes (Normalize junk m inp xi yi out xo yo w h) m out xo yo w h
      (fun i j c => f (pixel m inp (xi + i) (yi + j) c)).
Proof.
  intros Hj A1 Ao C B N (Hall & Hlo & Hhi) Hlt Hov.
  assert (BR : roi_bytes m inp xi yi w h) by (intros i j c Hin; apply (bytes_at m inp xi yi w h); auto; apply A1).
  destruct (Normalize_ok junk m inp xi yi out xo yo w h lo hi) as (f & Hw & _ & Hf); auto; [tauto|].
  exists f. split; [|exact Hw]. apply stretch_of_nearest; [lia| |apply Hf; exact Hlt].
  destruct Hlo as (i & j & c & Hin & Hv). destruct Hhi as (i' & j' & c' & Hin' & Hv').
  pose proof (BR i j c Hin). pose proof (BR i' j' c' Hin'). lia.
Qed.
(** A constant region is copied, under the standard's rules as well. *)
Theorem C23_constant junk m inp xi yi out xo yo w h v :
  area m inp xi yi w h -> area m out xo yo w h -> icc inp = icc out -> bytes m inp ->
  disjoint out xo yo w h inp xi yi w h ->
  (forall i j c, inside w h (icc inp) i j c -> pixel m inp (xi + i) (yi + j) c = v) ->
  writes (Normalize junk m inp xi yi out xo yo w h) m out xo yo w h (fun _ _ _ => v).
Proof.
  intros (W1 & R1) (Wo & Ro) C B D Hv.
  assert (BR : roi_bytes m inp xi yi w h) by (intros i j c Hin; apply (bytes_at m inp xi yi w h); auto).
  destruct (min_max_ok m inp xi yi w h (conj W1 R1) BR) as (mn & mx & He & Hb & (i1 & j1 & c1 & Hin1 & Hv1) & (i2 & j2 & c2 & Hin2 & Hv2)).
  rewrite (Hv _ _ _ Hin1) in Hv1. rewrite (Hv _ _ _ Hin2) in Hv2.
  unfold Normalize, valid_roi2, common_cc2.
  rewrite (valid_roi_ok m inp) by assumption. rewrite (valid_roi_ok m out) by assumption. cbn [andb].
  assert (Ecc : (icc inp =? icc out) = true) by (apply Z.eqb_eq; exact C). rewrite Ecc, He. cbn [bind].
  rewrite <- Hv1, <- Hv2, Z.eqb_refl, orb_true_r. eapply writes_ext; [apply Copy_writes; assumption|].
  intros i j c Hin. apply Hv. rewrite C. exact Hin.
Qed.
Theorem C23_rejects junk m inp xi yi out xo yo w h :
  args_u32 inp xi yi w h -> args_u32 out xo yo w h ->
  ~ (valid_arg inp xi yi w h /\ valid_arg out xo yo w h) \/ icc inp <> icc out ->
  rejected (Normalize junk m inp xi yi out xo yo w h) m.
Proof.
  intros U1 Uo Hbad. unfold rejected, Normalize. destruct Hbad as [Hb|Hb].
  - rewrite (bad2 _ _ _ _ _ _ _ _ U1 Uo Hb). reflexivity.
  - destruct (valid_roi2 inp xi yi out xo yo w h); [|reflexivity].
    unfold common_cc2. destruct (Z.eqb_spec (icc inp) (icc out)); [contradiction|reflexivity].
Qed.
(** The samples 10, 30, ..., 110 of block 1 become 0, 51, ..., 255. *)
Example C23_case : exists f, stretches f 10 110 /\
  writes (Normalize (fun _ => Ok 77) steps (img 1 3 2 1 3) 0 0 (img 2 4 3 1 8) 1 1 3 2) steps (img 2 4 3 1 8) 1 1 3 2
    (fun i j c => f (pixel steps (img 1 3 2 1 3) (0 + i) (0 + j) c)).
Proof.
  apply C23_normalize_partial; try lia; try reflexivity; try solve_area.
  - intros d. exists 77. reflexivity.
  - apply steps_bytes.
  - apply hazard_of_disjoint. solve_disjoint.
  - apply steps_range.
Qed.
Example C23_case_values :
  match Normalize (fun _ => Ok 77) steps (img 1 3 2 1 3) 0 0 (img 2 4 3 1 8) 1 1 3 2 with
  | Ok m => map (fun o => get m (2, o)) [8; 9; 10; 11; 12; 17; 18; 19; 20] = [0; 0; 51; 102; 0; 153; 204; 255; 0]
  | _ => False
  end.
Proof. vm_compute. reflexivity. Qed.
(** Halves are not always rounded up: 127.5 becomes 127 for v - min = 25, max - min = 50. *)
Example C23_case_half : dtrunc (norm_value 0 50 25) = Some 127 /\ dtrunc (norm_value 0 2 1) = Some 128.
Proof. vm_compute. split; reflexivity. Qed.
Print Assumptions C23_normalize_partial.
Print Assumptions C23_constant.
Print Assumptions C23_rejects.

(** ** C28 *)

(** Some pixel of value [v] of the region lies in the box of radius ([rx],[ry]) around ([i],[j]);
    pixels outside the region do not count. *)
Definition near_value (m : mem) (im : image) (x y w h rx ry v i j : Z) : Prop :=
  exists i' j', 0 <= i' < w /\ 0 <= j' < h /\ Z.abs (i - i') <= rx /\ Z.abs (j - j') <= ry /\
    pixel m im (x + i') (y + j') 0 = v.

(** The region of [im] in [m'] is the box filter of the one in [m]: a pixel has the value [v]
    exactly if one near it had it; all others have the other value; nothing else changed. *)
Definition box_filter (m m' : mem) (im : image) (x y w h dx dy v : Z) : Prop :=
  only_roi_changed m m' im x y w h /\
  forall i j, 0 <= i < w -> 0 <= j < h ->
    (near_value m im x y w h (Z.min dx (w / 2)) (Z.min dy (h / 2)) v i j /\ pixel m' im (x + i) (y + j) 0 = v) \/
    (~ near_value m im x y w h (Z.min dx (w / 2)) (Z.min dy (h / 2)) v i j /\ pixel m' im (x + i) (y + j) 0 = 255 - v).

Lemma Dilate_box m im x y w h dx dy v :
  area m im x y w h -> icc im = 1 -> binary_roi m im x y w h -> w < 2147483648 -> h < 2147483648 ->
  0 <= dx -> 0 <= dy -> v = 0 \/ v = 255 ->
  exists m', Dilate m im x y w h dx dy v = Ok m' /\ box_filter m m' im x y w h dx dy v.
Proof.
  intros A C B Hw Hh Hx Hy Hv.
  destruct (Dilate_ok m im x y w h dx dy v) as (m' & E & Ho & Hb & Hp); auto.
  exists m'. split; [exact E|]. split; [exact Ho|]. intros i j Hi Hj. specialize (Hp i j Hi Hj).
  unfold near_value. specialize (Hb i j Hi Hj).
  destruct (Z.eq_dec (pixel m' im (x + i) (y + j) 0) v) as [Ev|Ev].
  - left. split; [apply Hp; exact Ev|exact Ev].
  - right. split; [intros Hn; apply Ev, Hp, Hn|]. lia.
Qed.

(** The full claim. *)
Definition C28_claim : Prop :=
  forall m im x y w h dx dy,
    area m im x y w h -> icc im = 1 -> binary_roi m im x y w h -> is_u32 dx -> is_u32 dy ->
    exists m', BinaryDilate m im x y w h dx dy = Ok m' /\ box_filter m m' im x y w h dx dy 255.

(** It holds for regions of fewer than 2^31 columns and rows. *)
Theorem C28_dilate_partial m im x y w h dx dy :
  area m im x y w h -> icc im = 1 -> binary_roi m im x y w h -> is_u32 dx -> is_u32 dy ->
  w < 2147483648 -> h < 2147483648 ->
  exists m', BinaryDilate m im x y w h dx dy = Ok m' /\ box_filter m m' im x y w h dx dy 255.
Proof. intros A C B (Hx & _) (Hy & _) Hw Hh. apply Dilate_box; auto. Qed.
Theorem C28_erode_partial m im x y w h dx dy :
  area m im x y w h -> icc im = 1 -> binary_roi m im x y w h -> is_u32 dx -> is_u32 dy ->
  w < 2147483648 -> h < 2147483648 ->
  exists m', BinaryErode m im x y w h dx dy = Ok m' /\ box_filter m m' im x y w h dx dy 0.
Proof. intros A C B (Hx & _) (Hy & _) Hw Hh. apply Dilate_box; auto. Qed.
(** The forms for whole images. *)
Theorem C28_whole_partial m im dx dy :
  wf m im -> icc im = 1 -> binary_roi m im 0 0 (iw im) (ih im) -> is_u32 dx -> is_u32 dy ->
  iw im < 2147483648 -> ih im < 2147483648 ->
  (exists m', BinaryDilate1 m im dx dy = Ok m' /\ box_filter m m' im 0 0 (iw im) (ih im) dx dy 255) /\
  (exists m', BinaryErode1 m im dx dy = Ok m' /\ box_filter m m' im 0 0 (iw im) (ih im) dx dy 0).
Proof.
  intros W C B Hx Hy Hw Hh.
  assert (A : area m im 0 0 (iw im) (ih im)) by (split; [exact W|]; destruct W; constructor; lia).
  assert (V : valid_image im = true).
  { destruct W. unfold valid_image, iempty, IsCorrectColorCount. destruct (idata im); [|contradiction].
    destruct wf_cc as [-> | [-> | ->]]; reflexivity. }
  unfold BinaryDilate1, BinaryErode1. rewrite V.
  split; [apply C28_dilate_partial|apply C28_erode_partial]; assumption.
Qed.

(** Beyond that the array of 2 * width pointers is allocated too small, because the size is
    computed in 32 bits. *)
Lemma dilate_line_huge m start n d value : 2147483648 <= n < W32 ->
  load m start = (Ok 0 : res mem Z) -> load m (padd start 1) = (Ok 255 : res mem Z) ->
  dilate_line m start 1 n d value = UB.
Proof.
  intros Hn H0 H1. unfold dilate_line. rewrite H0. cbn [bind].
  assert (Hf : exists f, fuel_of n = S f) by (eexists; reflexivity). destruct Hf as (f & ->). cbn [loop].
  cbn [sstop scur negb andb]. rewrite Z.mul_1_r.
  assert (Hne : ptr_eqb (padd start 1) (padd start (u32 n)) = false).
  { unfold ptr_eqb, padd. cbn [fst snd]. apply andb_false_iff. right. rewrite u32_small by lia. lia. }
  rewrite Hne. cbn [negb]. unfold scan_step. cbn [scur sprev spairs length]. rewrite H1. cbn [bind].
  change (255 =? 0) with false. cbv iota.
  replace (n + Z.of_nat 0 <? u32 (2 * n)) with false; [reflexivity|].
  symmetry. apply Z.ltb_ge. unfold u32, W32 in *. lia.
Qed.
Definition huge_mem : mem := fun b => mkBlock 4294967295 (fun o => if o =? 0 then 0 else 255).
Theorem C28_claim_refuted : ~ C28_claim.
Proof.
  intros H.
  assert (A : area huge_mem (img 1 2147483648 1 1 2147483648) 0 0 2147483648 1) by (clear; solve_area).
  destruct (H huge_mem (img 1 2147483648 1 1 2147483648) 0 0 2147483648 1 1 0) as (m' & E & _); auto.
  - clear. intros i j Hi Hj. unfold pixel, get, huge_mem. cbn [bget]. destruct (_ =? 0); auto.
  - split; [lia|reflexivity].
  - split; [lia|reflexivity].
  - clear H. unfold BinaryDilate, Dilate in E. rewrite (valid_roi_ok huge_mem) in E by apply A.
    change (is_gray (img 1 2147483648 1 1 2147483648)) with true in E. cbv iota in E.
    change ((1 =? 0) && (0 =? 0)) with false in E. change (2147483648 / 2 <? 1) with false in E.
    change (1 / 2 <? 0) with false in E. cbv iota zeta in E. change (0 <? 1) with true in E. cbv iota in E.
    unfold walk at 1 in E. change (fuel_of 1) with 2%nat in E. cbn [loop fst snd nth negb] in E.
    replace (ptr_eqb (row_ptr (img 1 2147483648 1 1 2147483648) 0 0 1)
               (padd (row_ptr (img 1 2147483648 1 1 2147483648) 0 0 1)
                  (u32 (1 * irs (img 1 2147483648 1 1 2147483648))))) with false in E by reflexivity.
    cbn [negb] in E. unfold c0 in E. cbn [nth] in E.
    rewrite dilate_line_huge in E; [discriminate|unfold W32; lia|reflexivity|reflexivity].
Qed.
Theorem C28_rejects m im x y w h dx dy : args_u32 im x y w h ->
  ~ valid_arg im x y w h \/ icc im <> 1 ->
  rejected (BinaryDilate m im x y w h dx dy) m /\ rejected (BinaryErode m im x y w h dx dy) m.
Proof.
  intros U Hb. unfold rejected, BinaryDilate, BinaryErode, Dilate.
  destruct (valid_roi im x y w h) eqn:E; [|split; reflexivity]. destruct Hb as [Hb|Hb].
  - rewrite (args_bad _ _ _ _ _ U Hb) in E. discriminate.
  - unfold is_gray, GRAY_SCALE. destruct (Z.eqb_spec (icc im) 1); [contradiction|split; reflexivity].
Qed.

(** A 9 x 5 image with two white pixels, dilated by (2, 1): two boxes, cut off at the border. *)
Definition dots : mem := fun b => mkBlock 64 (fun o => if (o =? 14) || (o =? 35) then 255 else 0).
Definition shape (r : res mem mem) : list Z :=
  match r with Ok m => map (fun o => get m (1, Z.of_nat o) / 255) (seq 0 45) | _ => [] end.
Example C28_case : exists m', BinaryDilate dots (img 1 9 5 1 9) 0 0 9 5 2 1 = Ok m' /\
  box_filter dots m' (img 1 9 5 1 9) 0 0 9 5 2 1 255.
Proof.
  apply C28_dilate_partial; try lia; try reflexivity; try solve_area.
  - intros i j Hi Hj. unfold pixel, get, dots. cbn [bget]. destruct (_ || _); auto.
  - split; [lia|reflexivity].
  - split; [lia|reflexivity].
Qed.
Example C28_case_shape : shape (BinaryDilate dots (img 1 9 5 1 9) 0 0 9 5 2 1) =
  [0;0;0;1;1;1;1;1;0;
   0;0;0;1;1;1;1;1;0;
   0;0;0;1;1;1;1;1;1;
   0;0;0;0;0;0;1;1;1;
   0;0;0;0;0;0;1;1;1].
Proof. vm_compute. reflexivity. Qed.
Print Assumptions C28_dilate_partial.
Print Assumptions C28_erode_partial.
Print Assumptions C28_whole_partial.
Print Assumptions C28_claim_refuted.
Print Assumptions C28_rejects.

(** ** C29: threshold selection *)

(** [count_to hist i] is the number of pixels with value at most [i], [value_to hist i] the sum
    of their values (defined in OtsuProofs.v, exact). *)
(** A histogram: 256 entries, fewer than 2^32 pixels. *)
Definition histogram (hist : list Z) : Prop :=
  length hist = 256%nat /\ (forall v, In v hist -> 0 <= v) /\ count_to hist 255 < W32.
(** Both classes "at most [i]" and "above [i]" contain pixels. *)
Definition splits (hist : list Z) (i : Z) : Prop :=
  0 <= i < 256 /\ 0 < count_to hist i < count_to hist 255.

(** The between-class variance as the code writes it, in double precision, from exact counts
    and value sums [s1], [s2] of the two classes. *)
Definition score (n n1 s1 s2 : Z) : double :=
  let w1 := ddiv (dofZ n1) (dofZ n) in
  let a := dsub (ddiv (dofZ s1) (dofZ n1)) (ddiv (dofZ s2) (dofZ (n - n1))) in
  dmul (dmul (dmul w1 (dsub (dofZ 1) w1)) a) a.
(** The value sums are uint32_t. *)
Definition score32 (hist : list Z) (i : Z) : double :=
  score (count_to hist 255) (count_to hist i) (value_to hist i mod W32)
    ((value_to hist 255 - value_to hist i) mod W32).

(** [t] is the first of the splitting indices with the largest score; 0 if none splits. *)
Definition first_maximum (P : Z -> Prop) (s : Z -> double) (t : Z) : Prop :=
  (P t /\ forall i, P i -> dlt (s t) (s i) = false /\ (i < t -> dlt (s i) (s t) = true)) \/
  ((forall i, ~ P i) /\ t = 0).

Lemma histogram_nth hist : histogram hist -> forall k, 0 <= k < 256 -> 0 <= zth hist k.
Proof. intros (Hl & Hp & _) k Hk. unfold zth. apply Hp. apply nth_In. lia. Qed.
Lemma score_sigma hist i : splits hist i -> count_to hist 255 < W32 ->
  sig hist (u32 (value_to hist 255)) i = score32 hist i.
Proof.
  intros (Hi & Hs) HW. unfold sig, sigma_of, score32, score. cbv zeta.
  rewrite (u32_small (count_to hist 255 - count_to hist i)) by lia.
  replace (u32 (u32 (value_to hist 255) - u32 (value_to hist i)))
    with ((value_to hist 255 - value_to hist i) mod W32).
  - reflexivity.
  - unfold u32. rewrite <- Zminus_mod. reflexivity.
Qed.

Theorem C29_threshold hist : histogram hist ->
  exists t, GetThreshold hist = Ok t /\ 0 <= t < 255 /\ first_maximum (splits hist) (score32 hist) t.
Proof.
  intros Hh. pose proof (histogram_nth hist Hh) as Hp. destruct Hh as (Hl & _ & HW).
  destruct (GetThreshold_ok hist Hl Hp HW) as (t & mx & E & Hb). exists t. split; [exact E|].
  destruct Hb as [(-> & _ & Hn)|(Ht & _ & _ & Hmax & Hfirst)].
  - split; [lia|]. right. split; [|reflexivity]. intros i Hi. specialize (Hn i Hi). destruct Hi. lia.
  - assert (Hs : forall i, candidate hist i -> splits hist i) by (intros i Hi; exact Hi).
    pose proof (Hs t Ht) as Hc. split.
    + destruct Hc as (Hr & Hc). destruct (Z.eq_dec t 255) as [->|]; [lia|lia].
    + left. split; [exact Hc|]. intros i Hi.
      rewrite <- (score_sigma hist t Hc HW), <- (score_sigma hist i Hi HW). split.
      * apply Hmax; [exact Hi|]. destruct Hi; lia.
      * intros Hlt. apply Hfirst; assumption.
Qed.

(** The exact between-class variance. *)
Definition between_variance (hist : list Z) (i : Z) : R :=
  let n := IZR (count_to hist 255) in
  let n1 := IZR (count_to hist i) in
  let n2 := IZR (count_to hist 255 - count_to hist i) in
  let mean1 := (IZR (value_to hist i) / n1)%R in
  let mean2 := (IZR (value_to hist 255 - value_to hist i) / n2)%R in
  (n1 / n * (n2 / n) * (mean1 - mean2) ^ 2)%R.

Lemma score_close n n1 s1 s2 : 0 < n1 < n -> n < W32 -> 0 <= s1 <= 255 * n1 -> 0 <= s2 <= 255 * (n - n1) ->
  s1 + s2 < W32 ->
  exists r, isR (score n n1 (s1 mod W32) (s2 mod W32)) r /\
    (Rabs (r - IZR n1 / IZR n * (IZR (n - n1) / IZR n) * (IZR s1 / IZR n1 - IZR s2 / IZR (n - n1)) ^ 2)
     <= bpow radix2 (-32))%R.
Proof.
  intros Hn HW H1 H2 HV. destruct (sigma_error n n1 s1 s2) as (r & Hr & He); try lia.
  exists r. split.
  - rewrite !Z.mod_small by lia. unfold sigma_of in Hr. unfold score.
    rewrite (u32_small (n - n1)) in Hr by lia. rewrite (u32_small (s1 + s2 - s1)) in Hr by lia.
    replace (s1 + s2 - s1) with s2 in Hr by lia. exact Hr.
  - unfold variance in He.
    replace (IZR n1 / IZR n * (IZR (n - n1) / IZR n) * (IZR s1 / IZR n1 - IZR s2 / IZR (n - n1)) ^ 2)%R
      with (IZR n1 / IZR n * (1 - IZR n1 / IZR n) * (IZR s1 / IZR n1 - IZR s2 / IZR (n - n1))
            * (IZR s1 / IZR n1 - IZR s2 / IZR (n - n1)))%R; [exact He|].
    generalize (IZR s1 / IZR n1 - IZR s2 / IZR (n - n1))%R. intros q. rewrite minus_IZR.
    assert (0 < IZR n)%R by (apply IZR_lt; lia). field. lra.
Qed.
Lemma score_error hist k : (forall k, 0 <= k < 256 -> 0 <= zth hist k) -> count_to hist 255 < W32 ->
  value_to hist 255 < W32 -> splits hist k ->
  exists r, isR (score32 hist k) r /\ (Rabs (r - between_variance hist k) <= bpow radix2 (-32))%R.
Proof.
  intros Hp HW HV (Hk & Hc).
  pose proof (prefix_sum_bounds hist Hp (-1) k ltac:(lia) ltac:(lia)) as B1.
  pose proof (prefix_sum_bounds hist Hp k 255 ltac:(lia) ltac:(lia)) as B2.
  rewrite prefix_m1 in B1. replace (value_to hist (-1)) with 0 in B1 by reflexivity.
  apply score_close; lia.
Qed.

(** If the sum of all values fits into 32 bits, the chosen threshold is optimal for the exact
    variance up to the rounding of the formula. *)
Theorem C29_threshold_near_optimal hist : histogram hist -> value_to hist 255 < W32 ->
  exists t, GetThreshold hist = Ok t /\
    forall i, splits hist i ->
      splits hist t /\ (between_variance hist i <= between_variance hist t + bpow radix2 (-31))%R.
Proof.
  intros Hh HV. pose proof (histogram_nth hist Hh) as Hp. destruct (C29_threshold hist Hh) as (t & E & _ & Hm).
  exists t. split; [exact E|]. intros i Hi. destruct Hh as (Hl & _ & HW).
  destruct Hm as [(Ht & Hm)|(Hn & _)]; [|elim (Hn i Hi)]. split; [exact Ht|].
  pose proof (fun k => score_error hist k Hp HW HV) as Herr.
  destruct (Hm i Hi) as (Hlt & _). destruct (Herr i Hi) as (ri & Ri & Ei). destruct (Herr t Ht) as (rt & Rt & Et).
  rewrite (isR_lt _ _ _ _ Rt Ri) in Hlt. destruct (Rlt_bool_spec rt ri) as [|Hle]; [discriminate|].
  apply Rabs_le_inv in Ei. apply Rabs_le_inv in Et. revert Ei Et Hle.
  generalize (between_variance hist i) (between_variance hist t). clear. intros vi vt Ei Et Hle.
  replace (bpow radix2 (-31)) with (bpow radix2 (-32) + bpow radix2 (-32))%R; [lra|].
  replace (-31) with (1 + -32) by lia. rewrite bpow_plus. simpl. lra.
Qed.

(** Without that condition (2^24 white pixels are enough to break it) this fails. *)
Definition C29_exact_claim : Prop :=
  forall hist, histogram hist ->
    exists t, GetThreshold hist = Ok t /\
      first_maximum (splits hist)
        (fun i => score (count_to hist 255) (count_to hist i) (value_to hist i) (value_to hist 255 - value_to hist i)) t.
(** 30 million pixels: 10 million each of value 0, 200 and 255.  The exact optimum is 0 (dark
    against bright); the wrapped sums make 200 win. *)
Definition bright : list Z :=
  map (fun k => if (k =? 0)%nat || (k =? 200)%nat || (k =? 255)%nat then 10000000 else 0) (seq 0 256).
Lemma bright_histogram : histogram bright.
Proof.
  split; [reflexivity|]. split; [|reflexivity].
  intros v Hv. apply in_map_iff in Hv as (k & <- & _). destruct (_ || _); lia.
Qed.
Theorem C29_exact_claim_refuted : ~ C29_exact_claim.
Proof.
  intros H. destruct (H bright bright_histogram) as (t & E & Hm). clear H.
  vm_compute in E. injection E as <-.
  destruct Hm as [(_ & Hm)|(Hn & _)].
  - destruct (Hm 0) as (Hd & _).
    + split; [lia|]. vm_compute. split; reflexivity.
    + revert Hd. vm_compute. discriminate.
  - apply (Hn 0). split; [lia|]. vm_compute. split; reflexivity.
Qed.
Theorem C29_rejects hist : length hist <> 256%nat -> GetThreshold hist = Throw tt.
Proof. intros H. unfold GetThreshold. destruct (Z.eqb_spec (Z.of_nat (length hist)) 256); [lia|reflexivity]. Qed.
(** Two groups of values; the first value of the gap wins. *)
Example C29_case_threshold :
  let hist := map (fun k => if (20 <=? k)%nat && (k <? 30)%nat || (k =? 200)%nat then 7 else 0) (seq 0 256) in
  histogram hist /\ value_to hist 255 < W32 /\ splits hist 29 /\ GetThreshold hist = Ok 29.
Proof.
  cbv zeta. split; [|split; [reflexivity|split; [|vm_compute; reflexivity]]].
  - split; [reflexivity|]. split; [|reflexivity].
    intros v Hv. apply in_map_iff in Hv as (k & <- & _). destruct (_ || _); lia.
  - split; [lia|]. vm_compute. split; reflexivity.
Qed.
(** One value only: nothing splits. *)
Example C29_case_constant : GetThreshold (map (fun k => if (k =? 100)%nat then 5 else 0) (seq 0 256)) = Ok 0.
Proof. vm_compute. reflexivity. Qed.
Print Assumptions C29_threshold.
Print Assumptions C29_threshold_near_optimal.
Print Assumptions C29_exact_claim_refuted.
Print Assumptions C29_rejects.

(** ** C29: gamma correction *)

(** The double [d] is finite and its value is [r]. *)
Definition value_is (d : double) (r : R) : Prop := isR d r.

(** What is assumed of the C library function pow for this gamma: the results for 0/255 ...
    255/255 are numbers [p i] between 0 and 1.  The table then consists of the values of
    a * p i * 255, cut off at 255, rounded to the nearest integer (up to 2^-40 for the
    rounding of the formula itself). *)
Theorem C29_gamma_table pow m a gamma (ra : R) (p : Z -> R) :
  value_is a ra -> (0 <= ra)%R -> dlt gamma (dofZ 0) = false ->
  (forall i, 0 <= i < 256 ->
     value_is (pow (ddiv (dofZ i) (dofZ 255)) gamma) (p i) /\ (0 <= p i <= 1)%R) ->
  exists table, gamma_table pow m a gamma = Ok table /\ length table = 256%nat /\
    (forall i, 0 <= i < 256 ->
       0 <= nth (Z.to_nat i) table 0 <= 255 /\
       (Rabs (IZR (nth (Z.to_nat i) table 0%Z) - Rmin 255 (255 * (ra * p i))) <= / 2 + bpow radix2 (-40))%R) /\
    (forall i j, 0 <= i -> i <= j -> j < 256 -> (p i <= p j)%R ->
       nth (Z.to_nat i) table 0 <= nth (Z.to_nat j) table 0).
Proof.
  intros Ha Ha0 Hg Hp. unfold gamma_table.
  assert (Hla : dlt a (dofZ 0) = false).
  { rewrite (isR_lt _ _ _ _ Ha (isR_ofZ 0 ltac:(lia))). apply Rlt_bool_false. exact Ha0. }
  rewrite Hla, Hg. cbn [orb negb].
  set (val := fun i => Z.min 255 (Zfloor (formula ra (p i)))).
  assert (Hval : forall i, 0 <= i < 0 + Z.of_nat 256 ->
    (if dlt (gamma_value pow a gamma i) (dofZ 256)
     then @cast_to mem 256 undefined (gamma_value pow a gamma i) else Ok 255) = Ok (val i)).
  { intros i Hi. destruct (Hp i ltac:(lia)) as (Hd & Hr).
    apply (entry_ok a ra); assumption. }
  exists (map (fun d => val (0 + Z.of_nat d)) (seq 0 256)). split; [|split; [|split]].
  - pose proof (table_ok (fun i => if dlt (gamma_value pow a gamma i) (dofZ 256)
        then @cast_to mem 256 undefined (gamma_value pow a gamma i) else Ok 255) val 256 0 [] Hval) as T.
    exact T.
  - rewrite map_length, seq_length. reflexivity.
  - intros i Hi. destruct (Hp i Hi) as (_ & Hr). fold (zth (map (fun d => val (0 + Z.of_nat d)) (seq 0 256)) i).
    rewrite zth_table by lia. unfold val. split.
    + pose proof (formula_pos ra Ha0 (p i) ltac:(lra)) as HF.
      assert (0 <= Zfloor (formula ra (p i))) by (apply Zfloor_lub; exact HF). lia.
    + apply formula_error; [exact Ha0|lra].
  - intros i j Hi Hij Hj Hle. fold (zth (map (fun d => val (0 + Z.of_nat d)) (seq 0 256)) i).
    fold (zth (map (fun d => val (0 + Z.of_nat d)) (seq 0 256)) j).
    rewrite !zth_table by lia. unfold val.
    pose proof (Zfloor_le _ _ (formula_le ra Ha0 (p i) (p j) Hle)). lia.
Qed.

(** The function: every sample goes through that table. *)
Theorem C29_gamma_correction pow m a gamma (ra : R) (p : Z -> R) inp xi yi out xo yo w h :
  value_is a ra -> (0 <= ra)%R -> dlt gamma (dofZ 0) = false ->
  (forall i, 0 <= i < 256 ->
     value_is (pow (ddiv (dofZ i) (dofZ 255)) gamma) (p i) /\ (0 <= p i <= 1)%R) ->
  area m inp xi yi w h -> area m out xo yo w h -> icc inp = icc out -> bytes m inp ->
  no_hazard out xo yo inp xi yi w h ->
  exists f, writes (GammaCorrection pow a gamma m inp xi yi out xo yo w h) m out xo yo w h
              (fun i j c => f (pixel m inp (xi + i) (yi + j) c)) /\
    forall v, 0 <= v < 256 ->
      (Rabs (IZR (f v) - Rmin 255 (255 * (ra * p v))) <= / 2 + bpow radix2 (-40))%R.
Proof.
  intros Ha Ha0 Hg Hp A1 Ao C B N.
  destruct (C29_gamma_table pow m a gamma ra p Ha Ha0 Hg Hp) as (table & Et & Hl & Hv & _).
  exists (fun v => nth (Z.to_nat v) table 0). split; [|intros v Hr; apply Hv; exact Hr].
  unfold GammaCorrection, valid_roi2. rewrite (valid_roi_ok m inp) by apply A1.
  rewrite (valid_roi_ok m out) by apply Ao. cbn [andb]. rewrite Et. cbn [bind].
  apply C03_lookup_table; assumption.
Qed.
Theorem C29_gamma_rejects pow m a gamma inp xi yi out xo yo w h :
  dlt a (dofZ 0) = true \/ dlt gamma (dofZ 0) = true ->
  gamma_table pow m a gamma = Throw m /\
  rejected (GammaCorrection pow a gamma m inp xi yi out xo yo w h) m.
Proof.
  intros H. assert (E : gamma_table pow m a gamma = Throw m).
  { unfold gamma_table. destruct H as [-> | ->]; [reflexivity|]. rewrite orb_true_r. reflexivity. }
  split; [exact E|]. unfold rejected, GammaCorrection. rewrite E.
  destruct (valid_roi2 _ _ _ _ _ _ _ _); reflexivity.
Qed.
(** a = 1, gamma = 1: the identity, if pow( x, 1 ) = x. *)
Theorem C29_gamma_identity pow m :
  (forall i, 0 <= i < 256 -> pow (ddiv (dofZ i) (dofZ 255)) (dofZ 1) = ddiv (dofZ i) (dofZ 255)) ->
  gamma_table pow m (dofZ 1) (dofZ 1) = Ok (map Z.of_nat (seq 0 256)).
Proof.
  intros H. unfold gamma_table. change (negb (dlt (dofZ 1) (dofZ 0) || dlt (dofZ 1) (dofZ 0))) with true. cbv iota.
  rewrite (table_ok (fun i => if dlt (gamma_value pow (dofZ 1) (dofZ 1) i) (dofZ 256)
        then @cast_to mem 256 undefined (gamma_value pow (dofZ 1) (dofZ 1) i) else Ok 255) (fun i => i)).
  - reflexivity.
  - intros i Hi. unfold gamma_value. rewrite H by lia.
    assert (HA : forallb (fun i => match entry_of (dofZ 1) (ddiv (dofZ (Z.of_nat i)) (dofZ 255)) with
                                   | Ok z => z =? Z.of_nat i | _ => false end) (seq 0 256) = true)
      by (vm_compute; reflexivity).
    pose proof (proj1 (forallb_forall _ _) HA (Z.to_nat i) ltac:(apply in_seq; lia)) as Hi'. cbv beta in Hi'.
    rewrite Z2Nat.id in Hi' by lia. clear HA. unfold entry_of in Hi'.
    destruct (if dlt _ _ then _ else _) as [z| | |]; try discriminate. apply Z.eqb_eq in Hi'. congruence.
Qed.
(** The hypotheses are met by gamma = 1 with pow( x, 1 ) = x and a = 2. *)
Example C29_case_gamma : exists table,
  gamma_table (fun x _ => x) emem (dofZ 2) (dofZ 1) = Ok table /\
  (Rabs (IZR (nth (Z.to_nat 100) table 0%Z) - Rmin 255 (255 * (2 * rnd (IZR 100 / IZR 255)))) <= / 2 + bpow radix2 (-40))%R.
Proof.
  destruct (C29_gamma_table (fun x _ => x) emem (dofZ 2) (dofZ 1) 2 (fun i => rnd (IZR i / IZR 255)))
    as (table & E & _ & H & _).
  - apply isR_ofZ. lia.
  - lra.
  - reflexivity.
  - intros i Hi. destruct (divZ_bound i 255 0) as (D & N & B); try lia.
    split; [exact D|]. rewrite Rabs_pos_eq in B by exact N. simpl in B. lra.
  - exists table. split; [exact E|]. apply H. lia.
Qed.
Example C29_case_gamma_values :
  match gamma_table (fun x _ => x) emem (dofZ 2) (dofZ 1) with
  | Ok t => map (fun i => nth i t 0) [0; 1; 100; 127; 128; 255]%nat = [0; 2; 200; 254; 255; 255]
  | _ => False
  end.
Proof. vm_compute. reflexivity. Qed.
Print Assumptions C29_gamma_table.
Print Assumptions C29_gamma_correction.
Print Assumptions C29_gamma_rejects.
Print Assumptions C29_gamma_identity.

(** ** C04: rejected arguments of these functions *)

Theorem C04_tone_and_morphology m a xa ya b xb yb w h : args_u32 a xa ya w h -> args_u32 b xb yb w h ->
  ~ (valid_arg a xa ya w h /\ valid_arg b xb yb w h) ->
  (forall junk, rejected (Normalize junk m a xa ya b xb yb w h) m) /\
  (forall pow al gamma, rejected (GammaCorrection pow al gamma m a xa ya b xb yb w h) m).
Proof.
  intros Ua Ub V. pose proof (bad2 _ _ _ _ _ _ _ _ Ua Ub V) as E.
  unfold rejected, Normalize, GammaCorrection. rewrite E. split; reflexivity.
Qed.
Print Assumptions C04_tone_and_morphology.
