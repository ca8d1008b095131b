(** Properties of the SIMD layer (image_function_simd.cpp): C32 - C42. *)
From Coq Require Import ZArith List Bool Lia.
From Verif Require Import Base Image Spec BaseProofs ImgFun ImgLemmas ImgProofs ConvProofs ReduceProofs SafeProofs PropsA PropsB.
From Verif Require Import Simd StepProofs SimdProofs SimdProofs1 SimdProofs2 SimdProofs3 SimdProofs4 SimdProofs5.
Import ListNotations.
Open Scope Z_scope.

Ltac Zify.zify_post_hook ::= Z.div_mod_to_equations.
Ltac closed_area := clear; solve_area.

(** ** Vocabulary *)

(** Both calls return and leave the same memory. *)
Definition same_result {E} (r1 r2 : res E mem) : Prop :=
  exists m1 m2, r1 = Ok m1 /\ r2 = Ok m2 /\ (forall p, get m1 p = get m2 p) /\ (forall b, len m1 b = len m2 b).

(** The instruction set that runs: [b] is what the library was built for, [fl] what the processor
    offers and the user has left enabled. *)
Notation isa b fl := (actualSimdType b fl) (only parsing).

Lemma roi_dec m im x y w h p : area m im x y w h ->
  (exists i j c, inside w h (icc im) i j c /\ p = px im (x + i) (y + j) c) \/
  (forall i j c, inside w h (icc im) i j c -> p <> px im (x + i) (y + j) c).
Proof.
  intros [W R]. pose proof (wf_cc_pos _ _ W) as Hc. pose proof (wf_rs_pos _ _ W) as Hr. pose proof (wf_rs _ _ W) as Hrs.
  set (o := snd p - snd (ibase im)).
  set (j := o / irs im - y). set (r := o mod irs im). set (i := r / icc im - x). set (c := r mod icc im).
  destruct (Z.eq_dec (fst p) (fst (ibase im))) as [E|N].
  2:{ right. intros i' j' c' _ ->. apply N. reflexivity. }
  destruct (Z_lt_dec j h), (Z_le_dec 0 j), (Z_lt_dec i w), (Z_le_dec 0 i).
  1:{ left. exists i, j, c. split.
      - split; [lia|]. split; [lia|]. subst c. apply Z.mod_pos_bound. lia.
      - unfold px. destruct p as [p1 p2]. cbn [fst snd] in *. f_equal; [assumption|].
        pose proof (Z.div_mod o (irs im)). pose proof (Z.div_mod r (icc im)). subst i j c. fold r in H.
        replace (y + (o / irs im - y)) with (o / irs im) by lia. replace (x + (r / icc im - x)) with (r / icc im) by lia.
        subst o. lia. }
  all: right; intros i' j' c' (Hi & Hj & Hcc) ->;
    assert (Ho : o = (y + j') * irs im + ((x + i') * icc im + c')) by (subst o; unfold px; cbn [snd]; lia);
    assert (Hlt : 0 <= (x + i') * icc im + c' < irs im) by (destruct R; nia);
    assert (Eq : o / irs im = y + j') by (rewrite Ho; symmetry; apply Z.div_unique with ((x + i') * icc im + c'); lia);
    assert (Er : r = (x + i') * icc im + c') by (subst r; rewrite Ho; symmetry; apply Z.mod_unique with (y + j'); lia);
    assert (Ei : r / icc im = x + i') by (rewrite Er; symmetry; apply Z.div_unique with c'; lia);
    subst i j; lia.
Qed.

Lemma writes_same {E} (r1 r2 : res E mem) m out x y w h v : area m out x y w h ->
  writes r1 m out x y w h v -> writes r2 m out x y w h v -> same_result r1 r2.
Proof.
  intros A (m1 & E1 & V1 & L1 & F1) (m2 & E2 & V2 & L2 & F2). exists m1, m2. split; [assumption|]. split; [assumption|]. split.
  - intros p. destruct (roi_dec m out x y w h p A) as [(i & j & c & Hin & ->)|Hno].
    + change (pixel m1 out (x + i) (y + j) c = pixel m2 out (x + i) (y + j) c). rewrite V1, V2 by assumption. reflexivity.
    + rewrite F1, F2 by assumption. reflexivity.
  - intros b. rewrite L1, L2. reflexivity.
Qed.

Lemma isa_usable b fl : usable b (isa b fl).
Proof. apply actual_compiled. Qed.

(** ** C32: pixelwise functions *)

Definition simd_call2 : Type := build -> simd_type -> call2.
(** SIMD function, scalar function, documented value *)
Definition simd_two_input : list (simd_call2 * call2 * (Z -> Z -> Z)) :=
  [(SimdAbsoluteDifference, AbsoluteDifference, fun a b => Z.abs (a - b));
   (SimdBitwiseAnd, BitwiseAnd, Z.land);
   (SimdBitwiseOr, BitwiseOr, Z.lor);
   (SimdBitwiseXor, BitwiseXor, Z.lxor);
   (SimdMaximum, Maximum, Z.max);
   (SimdMinimum, Minimum, Z.min)].

Lemma simd_two_input_scalar S F f : In (S, F, f) simd_two_input -> In (F, f) two_input_functions.
Proof.
  unfold simd_two_input, two_input_functions. cbn [In].
  intros [E|[E|[E|[E|[E|[E|[]]]]]]]; injection E as <- <- <-; auto 8.
Qed.


Lemma simd_two_input_model S F f : In (S, F, f) simd_two_input ->
  exists vop g, S = simd2 vop g F /\ F = pixelwise2 opt3 g /\ (forall t, vec2 (nlanes t) (vop t) g) /\
    (forall a b, 0 <= a < 256 -> 0 <= b < 256 -> g a b = f a b).
Proof.
  unfold simd_two_input. cbn [In].
  intros [E|[E|[E|[E|[E|[E|[]]]]]]]; injection E as <- <- <-; do 2 eexists;
    (split; [reflexivity|split; [reflexivity|split]]); auto.
  - apply v_absdiff_vec.
  - intros a b Ha Hb. unfold absdiff_px, u8. destruct (Z.ltb_spec a b); rewrite Z.mod_small; lia.
  - apply v_and_vec.
  - apply v_or_vec.
  - apply v_xor_vec.
  - apply v_max_vec.
  - intros a b Ha Hb. unfold max_px. destruct (Z.ltb_spec b a); lia.
  - apply v_min_vec.
  - intros a b Ha Hb. unfold min_px. destruct (Z.ltb_spec a b); lia.
Qed.

(** The vector function writes the documented value into every pixel of the region, touches nothing
    else, and leaves the memory the scalar function leaves. *)
Theorem C32_two_input S F f b fl m in1 x1 y1 in2 x2 y2 out xo yo w h :
  In (S, F, f) simd_two_input -> build_ok b = true ->
  area m in1 x1 y1 w h -> area m in2 x2 y2 w h -> area m out xo yo w h ->
  icc in1 = icc out -> icc in2 = icc out -> bytes m in1 -> bytes m in2 ->
  no_hazard out xo yo in1 x1 y1 w h -> no_hazard out xo yo in2 x2 y2 w h ->
  writes (S b (isa b fl) m in1 x1 y1 in2 x2 y2 out xo yo w h) m out xo yo w h
    (fun i j c => f (pixel m in1 (x1 + i) (y1 + j) c) (pixel m in2 (x2 + i) (y2 + j) c)) /\
  same_result (S b (isa b fl) m in1 x1 y1 in2 x2 y2 out xo yo w h) (F m in1 x1 y1 in2 x2 y2 out xo yo w h).
Proof.
  intros HS Hb A1 A2 Ao C1 C2 B1 B2 N1 N2.
  assert (Hsc := C01_two_input_pixelwise F f m in1 x1 y1 in2 x2 y2 out xo yo w h
                   (simd_two_input_scalar _ _ _ HS) A1 A2 Ao C1 C2 B1 B2 N1 N2).
  assert (Hv : writes (S b (isa b fl) m in1 x1 y1 in2 x2 y2 out xo yo w h) m out xo yo w h
    (fun i j c => f (pixel m in1 (x1 + i) (y1 + j) c) (pixel m in2 (x2 + i) (y2 + j) c))).
  { destruct (simd_two_input_model S F f HS) as (vop & g & -> & EF & Hvec & Hg).
    destruct A1 as [W1 R1], A2 as [W2 R2], Ao as [Wo Ro].
    assert (Hgf : forall i j c, inside w h (icc out) i j c ->
      g (pixel m in1 (x1 + i) (y1 + j) c) (pixel m in2 (x2 + i) (y2 + j) c)
      = f (pixel m in1 (x1 + i) (y1 + j) c) (pixel m in2 (x2 + i) (y2 + j) c)).
    { intros i j c Hi. apply Hg; apply (bytes_at m _ _ _ w h); auto; congruence. }
    eapply writes_ext; [|exact Hgf].
    apply simd2_writes; auto using isa_usable.
    left. eapply writes_ext; [exact Hsc|]. intros i j c Hi. symmetry. apply Hgf; assumption. }
  split; [exact Hv|]. exact (writes_same _ _ m out xo yo w h _ Ao Hv Hsc).
Qed.

(** A build with AVX2 on a processor that has it: the vector path, the scalar tail and in-place use. *)
Definition avx_build : build := mkBuild false true true true false.
Definition avx512_build : build := mkBuild true true true true false.
Definition sse_build : build := mkBuild false false true false false.
Definition ssse3_build : build := mkBuild false false true true false.
Definition neon_build : build := mkBuild false false false false true.
Definition all_flags : flags := mkFlags true true true true.
Example C32_case : writes (SimdMaximum avx_build (isa avx_build all_flags) emem (img 1 45 4 1 50) 1 1 (img 2 44 3 1 44) 0 1 (img 1 45 4 1 50) 1 1 41 2)
    emem (img 1 45 4 1 50) 1 1 41 2
    (fun i j c => Z.max (pixel emem (img 1 45 4 1 50) (1 + i) (1 + j) c) (pixel emem (img 2 44 3 1 44) (0 + i) (1 + j) c)).
Proof.
  refine (proj1 (C32_two_input SimdMaximum Maximum Z.max avx_build all_flags emem _ _ _ _ _ _ _ _ _ _ _ _ eq_refl _ _ _ _ _ _ _ _ _));
    try solve_area; try reflexivity; try apply emem_bytes.
  - do 4 right. left. reflexivity.
  - apply (no_hazard_same emem); [solve_wf|solve_roi].
  - apply hazard_of_disjoint; solve_disjoint.
Qed.
Example C32_case_isa : isa avx_build all_flags = avx /\ isa avx512_build all_flags = avx512 /\ isa sse_build all_flags = sse
  /\ isa neon_build all_flags = neon /\ isa avx512_build (mkFlags false false true true) = sse.
Proof. repeat split. Qed.
Print Assumptions C32_two_input.

(** Invalid arguments are rejected by both, with unchanged memory. *)
Theorem C32_two_input_rejects S F f b fl m in1 x1 y1 in2 x2 y2 out xo yo w h :
  In (S, F, f) simd_two_input -> build_ok b = true ->
  args_u32 in1 x1 y1 w h -> args_u32 in2 x2 y2 w h -> args_u32 out xo yo w h ->
  ~ (valid_arg in1 x1 y1 w h /\ valid_arg in2 x2 y2 w h /\ valid_arg out xo yo w h) \/ icc in1 <> icc in2 \/ icc in1 <> icc out ->
  rejected (S b (isa b fl) m in1 x1 y1 in2 x2 y2 out xo yo w h) m /\
  rejected (F m in1 x1 y1 in2 x2 y2 out xo yo w h) m.
Proof.
  intros HS Hb U1 U2 Uo Hbad.
  destruct (simd_two_input_model S F f HS) as (vop & g & -> & EF & Hvec & Hg).
  assert (HG : valid_roi3 in1 x1 y1 in2 x2 y2 out xo yo w h && common_cc3 in1 in2 out = false).
  { destruct Hbad as [Hbad|Hbad].
    - rewrite bad3 by assumption. reflexivity.
    - apply andb_false_iff. right. unfold common_cc3. apply andb_false_iff. rewrite !Z.eqb_neq. exact Hbad. }
  assert (Hs : F m in1 x1 y1 in2 x2 y2 out xo yo w h = Throw m).
  { rewrite EF. unfold pixelwise2. 
    destruct (valid_roi3 in1 x1 y1 in2 x2 y2 out xo yo w h); cbn [andb] in HG; [rewrite HG|]; reflexivity. }
  split; [|exact Hs]. unfold rejected. apply simd2_rejects; auto using isa_usable.
Qed.
Example C32_rejects_case : args_u32 (img 1 45 4 1 50) 10 1 40 2 /\ ~ valid_arg (img 1 45 4 1 50) 10 1 40 2.
Proof.
  split; [unfold args_u32, u32_image, is_u32, W32; cbn; lia|]. intros (_ & _ & R). destruct R. cbn in *. lia.
Qed.
Print Assumptions C32_two_input_rejects.

(** The functions with one input: Invert and both Threshold functions. *)
Theorem C32_invert b fl m inp xi yi out xo yo w h :
  build_ok b = true -> area m inp xi yi w h -> area m out xo yo w h -> icc inp = icc out -> bytes m inp ->
  no_hazard out xo yo inp xi yi w h ->
  writes (SimdInvert b (isa b fl) m inp xi yi out xo yo w h) m out xo yo w h
    (fun i j c => 255 - pixel m inp (xi + i) (yi + j) c) /\
  same_result (SimdInvert b (isa b fl) m inp xi yi out xo yo w h) (Invert m inp xi yi out xo yo w h).
Proof.
  intros Hb A1 Ao C B N. destruct A1 as [W1 R1]. pose proof Ao as [Wo Ro].
  assert (Hs := C03_invert m inp xi yi out xo yo w h (conj W1 R1) Ao C B N).
  assert (Hv : writes (SimdInvert b (isa b fl) m inp xi yi out xo yo w h) m out xo yo w h
    (fun i j c => 255 - pixel m inp (xi + i) (yi + j) c)).
  { eapply writes_ext; [apply SimdInvert_writes; auto using isa_usable|].
    intros i j c Hi. cbv beta. rewrite <- C in Hi. pose proof (bytes_at m inp xi yi w h i j c B R1 Hi).
    unfold invert_px, u8, Z.lnot. lia. }
  split; [exact Hv|]. exact (writes_same _ _ m out xo yo w h _ Ao Hv Hs).
Qed.
Theorem C32_threshold th b fl m inp xi yi out xo yo w h :
  build_ok b = true -> 0 <= th < 256 -> area m inp xi yi w h -> area m out xo yo w h -> icc inp = 1 -> icc out = 1 ->
  bytes m inp -> no_hazard out xo yo inp xi yi w h ->
  writes (SimdThreshold th b (isa b fl) m inp xi yi out xo yo w h) m out xo yo w h
    (fun i j c => if pixel m inp (xi + i) (yi + j) c <? th then 0 else 255) /\
  same_result (SimdThreshold th b (isa b fl) m inp xi yi out xo yo w h) (Threshold th m inp xi yi out xo yo w h).
Proof.
  intros Hb Hth A1 Ao C Co B N.
  assert (Hs := C03_threshold th m inp xi yi out xo yo w h A1 Ao C Co N).
  destruct A1 as [W1 R1]. pose proof Ao as [Wo Ro].
  assert (Hv : writes (SimdThreshold th b (isa b fl) m inp xi yi out xo yo w h) m out xo yo w h
    (fun i j c => if pixel m inp (xi + i) (yi + j) c <? th then 0 else 255)).
  { apply SimdThreshold_writes; auto using isa_usable. }
  split; [exact Hv|]. exact (writes_same _ _ m out xo yo w h _ Ao Hv Hs).
Qed.
Theorem C32_threshold_band lo hi b fl m inp xi yi out xo yo w h :
  build_ok b = true -> 0 <= lo -> lo <= hi -> hi < 256 ->
  area m inp xi yi w h -> area m out xo yo w h -> icc inp = 1 -> icc out = 1 ->
  bytes m inp -> no_hazard out xo yo inp xi yi w h ->
  writes (SimdThreshold2 lo hi b (isa b fl) m inp xi yi out xo yo w h) m out xo yo w h
    (fun i j c => if (lo <=? pixel m inp (xi + i) (yi + j) c) && (pixel m inp (xi + i) (yi + j) c <=? hi) then 255 else 0) /\
  same_result (SimdThreshold2 lo hi b (isa b fl) m inp xi yi out xo yo w h) (Threshold2 lo hi m inp xi yi out xo yo w h).
Proof.
  intros Hb Hlo Hle Hhi A1 Ao C Co B N.
  assert (Hs := C03_threshold_band lo hi m inp xi yi out xo yo w h A1 Ao C Co N Hle).
  destruct A1 as [W1 R1]. pose proof Ao as [Wo Ro].
  assert (Hv : writes (SimdThreshold2 lo hi b (isa b fl) m inp xi yi out xo yo w h) m out xo yo w h
    (fun i j c => if (lo <=? pixel m inp (xi + i) (yi + j) c) && (pixel m inp (xi + i) (yi + j) c <=? hi) then 255 else 0)).
  { eapply writes_ext; [apply SimdThreshold2_writes; auto using isa_usable; unfold byte; lia|].
    intros i j c _. cbv beta. unfold thr2_px. set (v := pixel m inp (xi + i) (yi + j) c).
    destruct (Z.ltb_spec v lo), (Z.ltb_spec hi v), (Z.leb_spec lo v), (Z.leb_spec v hi); auto; lia. }
  split; [exact Hv|]. exact (writes_same _ _ m out xo yo w h _ Ao Hv Hs).
Qed.
Theorem C32_one_input_rejects b fl m inp xi yi out xo yo w h :
  build_ok b = true -> args_u32 inp xi yi w h -> args_u32 out xo yo w h ->
  (~ (valid_arg inp xi yi w h /\ valid_arg out xo yo w h) \/ icc inp <> icc out ->
   rejected (SimdInvert b (isa b fl) m inp xi yi out xo yo w h) m /\ rejected (Invert m inp xi yi out xo yo w h) m) /\
  (~ (valid_arg inp xi yi w h /\ valid_arg out xo yo w h) \/ icc inp <> 1 \/ icc out <> 1 ->
   (forall th, rejected (SimdThreshold th b (isa b fl) m inp xi yi out xo yo w h) m /\
               rejected (Threshold th m inp xi yi out xo yo w h) m) /\
   (forall lo hi, rejected (SimdThreshold2 lo hi b (isa b fl) m inp xi yi out xo yo w h) m /\
                  rejected (Threshold2 lo hi m inp xi yi out xo yo w h) m)).
Proof.
  intros Hb U1 Uo. split.
  - intros Hbad.
    assert (HG : valid_roi2 inp xi yi out xo yo w h && common_cc2 inp out = false).
    { destruct Hbad as [Hbad|Hbad]; [rewrite bad2 by assumption; reflexivity|].
      apply andb_false_iff. right. apply Z.eqb_neq. exact Hbad. }
    split; [apply SimdInvert_rejects; assumption|]. unfold rejected, Invert, pixelwise1.
    destruct (valid_roi2 inp xi yi out xo yo w h); cbn [andb] in HG; [rewrite HG|]; reflexivity.
  - intros Hbad.
    assert (HG : valid_roi2 inp xi yi out xo yo w h && (is_gray inp && is_gray out) = false).
    { destruct Hbad as [Hbad|Hbad]; [rewrite bad2 by assumption; reflexivity|].
      apply andb_false_iff. right. apply andb_false_iff. unfold is_gray, GRAY_SCALE.
      rewrite !Z.eqb_neq. exact Hbad. }
    assert (HT : forall th, Threshold th m inp xi yi out xo yo w h = Throw m).
    { intros th. unfold Threshold, pixelwise1.
      destruct (valid_roi2 inp xi yi out xo yo w h); cbn [andb] in HG; [rewrite HG|]; reflexivity. }
    assert (HT2 : forall lo hi, Threshold2 lo hi m inp xi yi out xo yo w h = Throw m).
    { intros lo hi. unfold Threshold2, pixelwise1.
      destruct (valid_roi2 inp xi yi out xo yo w h); cbn [andb] in HG; [rewrite HG|]; reflexivity. }
    split; intros; (split; [|apply HT || apply HT2]); unfold rejected.
    + rewrite SimdThreshold_dispatch. apply thr_dispatch_rejects; auto.
    + rewrite SimdThreshold2_dispatch. apply thr_dispatch_rejects; auto.
Qed.
Example C32_one_input_case : same_result
  (SimdThreshold 100 neon_build (isa neon_build all_flags) emem (img 1 45 4 1 50) 1 1 (img 2 44 3 1 44) 0 1 41 2)
  (Threshold 100 emem (img 1 45 4 1 50) 1 1 (img 2 44 3 1 44) 0 1 41 2).
Proof.
  refine (proj2 (C32_threshold 100 neon_build all_flags _ _ _ _ _ _ _ _ _ eq_refl _ _ _ _ _ _ _));
    try solve_area; try apply emem_bytes; try reflexivity; [lia|]. apply hazard_of_disjoint; solve_disjoint.
Qed.
Print Assumptions C32_invert.
Print Assumptions C32_threshold.
Print Assumptions C32_threshold_band.
Print Assumptions C32_one_input_rejects.

(** Identical exceptions fail for the two-limit Threshold: minThreshold > maxThreshold is rejected by
    the scalar function but accepted by every vector path. *)
Definition C32_claim : Prop := forall lo hi b fl m inp xi yi out xo yo w h,
  build_ok b = true -> 0 <= lo < 256 -> 0 <= hi < 256 ->
  area m inp xi yi w h -> area m out xo yo w h -> icc inp = 1 -> icc out = 1 ->
  bytes m inp -> no_hazard out xo yo inp xi yi w h ->
  rejected (Threshold2 lo hi m inp xi yi out xo yo w h) m ->
  rejected (SimdThreshold2 lo hi b (isa b fl) m inp xi yi out xo yo w h) m.
Definition ok_res {E A} (r : res E A) : bool := match r with Ok _ => true | _ => false end.
Lemma not_rejected {A} (r : res mem A) m : ok_res r = true -> ~ rejected r m.
Proof. intros H E. unfold rejected in E. rewrite E in H. discriminate H. Qed.
Theorem C32_threshold_limits_refuted : ~ C32_claim.
Proof.
  intros H.
  specialize (H 200 100 sse_build all_flags emem (img 1 20 1 1 20) 0 0 (img 2 20 1 1 20) 0 0 20 1).
  revert H. cbv beta. intros H.
  refine (not_rejected (SimdThreshold2 200 100 sse_build sse emem (img 1 20 1 1 20) 0 0 (img 2 20 1 1 20) 0 0 20 1) emem _ (H _ _ _ _ _ _ _ _ _ _)).
  - vm_compute. reflexivity.
  - reflexivity.
  - lia.
  - lia.
  - closed_area.
  - closed_area.
  - reflexivity.
  - reflexivity.
  - apply emem_bytes.
  - apply hazard_of_disjoint; solve_disjoint.
  - apply C03_threshold_band_rejects. lia.
Qed.
Print Assumptions C32_threshold_limits_refuted.

(** ** C33: Subtract *)

(** The vector path runs when a row of the region fills at least one register (on AVX2: one 128-bit
    register). *)
Definition vector_path (t : simd_type) (len : Z) : Prop :=
  match t with avx512 => 64 <= len | avx => 16 <= len | sse => 16 <= len | neon => 16 <= len | cpu => False end.
Theorem C33_subtract b fl m in1 x1 y1 in2 x2 y2 out xo yo w h :
  build_ok b = true -> vector_path (isa b fl) (w * icc out) ->
  area m in1 x1 y1 w h -> area m in2 x2 y2 w h -> area m out xo yo w h ->
  icc in1 = icc out -> icc in2 = icc out -> bytes m in1 -> bytes m in2 ->
  no_hazard out xo yo in1 x1 y1 w h -> no_hazard out xo yo in2 x2 y2 w h ->
  writes (SimdSubtract b (isa b fl) m in1 x1 y1 in2 x2 y2 out xo yo w h) m out xo yo w h
    (fun i j c => Z.max 0 (pixel m in1 (x1 + i) (y1 + j) c - pixel m in2 (x2 + i) (y2 + j) c)).
Proof.
  intros Hb Hp [W1 R1] [W2 R2] [Wo Ro] C1 C2 B1 B2 N1 N2.
  eapply writes_ext.
  - apply (simd2_writes v_sub sub_px Subtract v_sub_vec); auto using isa_usable.
    right. destruct (isa b fl); cbn [vector_path getSimdSize] in *; try (left; split; [discriminate|assumption]); auto.
    contradiction.
  - intros i j c Hi. cbv beta.
    pose proof (bytes_at m in1 x1 y1 w h i j c B1 R1) as P1. rewrite C1 in P1. specialize (P1 Hi).
    pose proof (bytes_at m in2 x2 y2 w h i j c B2 R2) as P2. rewrite C2 in P2. specialize (P2 Hi).
    unfold sub_px, u8, u32, W32. 
    destruct (Z.ltb_spec (pixel m in1 (x1 + i) (y1 + j) c) (pixel m in2 (x2 + i) (y2 + j) c)); lia.
Qed.
Example C33_case : writes (SimdSubtract avx_build (isa avx_build all_flags) emem (img 1 9 4 3 31) 1 1 (img 2 9 3 3 27) 0 1 (img 3 9 4 3 28) 1 1 7 2)
    emem (img 3 9 4 3 28) 1 1 7 2
    (fun i j c => Z.max 0 (pixel emem (img 1 9 4 3 31) (1 + i) (1 + j) c - pixel emem (img 2 9 3 3 27) (0 + i) (1 + j) c)).
Proof.
  refine (C33_subtract avx_build all_flags emem _ _ _ _ _ _ _ _ _ _ _ eq_refl _ _ _ _ _ _ _ _ _ _);
    try solve_area; try reflexivity; try apply emem_bytes; try (apply hazard_of_disjoint; solve_disjoint).
  cbn. lia.
Qed.
Print Assumptions C33_subtract.

(** ** C34: Sum *)

Theorem C34_sum b fl m im x y w h :
  build_ok b = true -> area m im x y w h -> icc im = 1 -> bytes m im ->
  SimdSum b (isa b fl) m im x y w h = Ok (roi_sum m im x y w h mod W32) /\
  SimdSum b (isa b fl) m im x y w h = Sum m im x y w h.
Proof.
  intros Hb [W R] C B.
  assert (E : SimdSum b (isa b fl) m im x y w h = Ok (u32 (zsum h (fun j => zsum w (fun i => pixel m im (x + i) (y + j) 0)))))
    by (apply SimdSum_value; auto using isa_usable).
  split.
  - rewrite E. unfold roi_sum, u32. rewrite C. reflexivity.
  - rewrite E. symmetry. apply Sum_value; assumption.
Qed.
Theorem C34_sum_rejects b fl m im x y w h :
  args_u32 im x y w h -> ~ valid_arg im x y w h \/ icc im <> 1 ->
  rejected (SimdSum b (isa b fl) m im x y w h) m /\ rejected (Sum m im x y w h) m.
Proof.
  intros U Hbad.
  assert (HG : valid_roi im x y w h && is_gray im = false).
  { destruct Hbad as [Hbad|Hbad]; [rewrite args_bad by assumption; reflexivity|].
    apply andb_false_iff. right. apply Z.eqb_neq. exact Hbad. }
  split; [apply SimdSum_rejects; assumption|]. unfold rejected, Sum.
  destruct (valid_roi im x y w h); cbn [andb] in HG; [rewrite HG|]; reflexivity.
Qed.
Example C34_case : area emem (img 1 70 4 1 80) 2 1 66 3 /\ icc (img 1 70 4 1 80) = 1 /\ bytes emem (img 1 70 4 1 80).
Proof. split; [solve_area|]. split; [reflexivity|apply emem_bytes]. Qed.
Print Assumptions C34_sum.
Print Assumptions C34_sum_rejects.

(** ** C35, C36: Accumulate *)

Theorem C35_accumulate b fl m im x y w h r :
  isa b fl = sse \/ isa b fl = neon \/ isa b fl = cpu ->
  area m im x y w h -> icc im = 1 -> bytes m im -> Z.of_nat (length r) = w * h ->
  exists r', SimdAccumulate b (isa b fl) m im x y w h r = Ok r' /\ length r' = length r /\
    (forall i j, 0 <= i < w -> 0 <= j < h ->
      entry r' (j * w + i) = (entry r (j * w + i) + pixel m im (x + i) (y + j) 0) mod W32) /\
    Accumulate m im x y w h r = Ok r'.
Proof.
  intros Ht [W R] C B L.
  destruct (SimdAccumulate_value b (isa b fl) m im x y w h r) as (r' & E & L' & V); auto using isa_usable; [tauto|].
  exists r'. split; [exact E|]. split; [exact L'|]. split; [exact V|].
  destruct (Accumulate_value m im x y w h r W R) as (r'' & E'' & L'' & V''); [rewrite C; lia|].
  rewrite E''. f_equal. apply (nth_ext _ _ 0 0); [congruence|].
  intros k Hk. assert (Hw : 0 < w) by apply R. assert (Hh : 0 < h) by apply R.
  set (K := Z.of_nat k). assert (HK : 0 <= K < w * h) by (subst K; lia).
  assert (Hd : K = K / w * w + K mod w) by (pose proof (Z.div_mod K w); lia).
  assert (0 <= K mod w < w) by (apply Z.mod_pos_bound; lia).
  assert (0 <= K / w < h) by (split; [apply Z.div_pos; lia|apply Z.div_lt_upper_bound; lia]).
  assert (G : forall l, nth k l 0 = zth l K) by (intros l; unfold zth, K; rewrite Nat2Z.id; reflexivity).
  specialize (V'' (K mod w) (K / w) 0). rewrite C in V''.
  replace (K / w * (w * 1) + K mod w * 1 + 0) with K in V'' by lia.
  pose proof (V (K mod w) (K / w) ltac:(assumption) ltac:(assumption)) as V1. rewrite <- Hd in V1.
  rewrite !G, V'' by (unfold inside; lia). symmetry. exact V1.
Qed.
Theorem C35_accumulate_rejects b fl m im x y w h r :
  args_u32 im x y w h -> wf m im -> icc im = 1 ->
  ~ valid_arg im x y w h \/ (roi_in im x y w h /\ Z.of_nat (length r) <> w * h) ->
  SimdAccumulate b (isa b fl) m im x y w h r = Throw r /\ Accumulate m im x y w h r = Throw r.
Proof.
  intros U W C Hbad. apply SimdAccumulate_rejects; auto using isa_usable.
  - apply Z.eqb_eq. exact C.
  - destruct Hbad as [Hbad|Hbad]; [left; apply args_bad; assumption|right; assumption].
Qed.
Example C35_case : isa sse_build all_flags = sse /\ area emem (img 1 70 4 1 80) 2 1 20 3 /\ bytes emem (img 1 70 4 1 80)
  /\ Z.of_nat (length (repeat 7 60)) = 20 * 3.
Proof. split; [reflexivity|]. split; [solve_area|]. split; [apply emem_bytes|reflexivity]. Qed.
Print Assumptions C35_accumulate.
Print Assumptions C35_accumulate_rejects.

Definition C36_claim (t : simd_type) : Prop := forall b fl m im x y w h r,
  isa b fl = t -> build_ok b = true ->
  area m im x y w h -> icc im = 1 -> bytes m im -> Z.of_nat (length r) = w * h ->
  SimdAccumulate b (isa b fl) m im x y w h r = Accumulate m im x y w h r.
(** Comparing two results by their entries. *)
Definition differ {E} (r1 r2 : res E (list Z)) : bool :=
  match r1, r2 with
  | Ok a, Ok b => negb (forallb (fun p => fst p =? snd p) (combine a b))
  | _, _ => false
  end.
Lemma differ_neq {E} (r1 r2 : res E (list Z)) : differ r1 r2 = true -> r1 <> r2.
Proof.
  intros H ->. destruct r2 as [l| | |]; try discriminate H. cbn [differ] in H.
  apply negb_true_iff in H. assert (F : forallb (fun p : Z * Z => fst p =? snd p) (combine l l) = true).
  { clear. induction l as [|x l IH]; [reflexivity|]. cbn [combine forallb fst snd]. rewrite Z.eqb_refl. exact IH. }
  rewrite F in H. discriminate H.
Qed.
Theorem C36_avx_accumulate_refuted : ~ C36_claim avx.
Proof.
  intros H. specialize (H avx_build all_flags emem (img 1 32 1 1 32) 0 0 32 1 (repeat 0 32)).
  refine (differ_neq (SimdAccumulate avx_build avx emem (img 1 32 1 1 32) 0 0 32 1 (repeat 0 32))
            (Accumulate emem (img 1 32 1 1 32) 0 0 32 1 (repeat 0 32)) _ (H _ _ _ _ _ _)).
  - vm_compute. reflexivity.
  - reflexivity.
  - reflexivity.
  - closed_area.
  - reflexivity.
  - apply emem_bytes.
  - reflexivity.
Qed.
Theorem C36_avx512_accumulate_refuted : ~ C36_claim avx512.
Proof.
  intros H. specialize (H avx512_build all_flags emem (img 1 64 1 1 64) 0 0 64 1 (repeat 0 64)).
  refine (differ_neq (SimdAccumulate avx512_build avx512 emem (img 1 64 1 1 64) 0 0 64 1 (repeat 0 64))
            (Accumulate emem (img 1 64 1 1 64) 0 0 64 1 (repeat 0 64)) _ (H _ _ _ _ _ _)).
  - vm_compute. reflexivity.
  - reflexivity.
  - reflexivity.
  - closed_area.
  - reflexivity.
  - apply emem_bytes.
  - reflexivity.
Qed.
Print Assumptions C36_avx_accumulate_refuted.
Print Assumptions C36_avx512_accumulate_refuted.

(** ** C37, C38: ProjectionProfile *)

Theorem C37_vertical b fl m im x y w h :
  build_ok b = true -> area m im x y w h -> bytes m im ->
  exists p, SimdProjectionProfile b (isa b fl) m im x y w h false = Ok p /\ length p = Z.to_nat h /\
    (forall j, 0 <= j < h ->
      entry p j = zsum w (fun i => zsum (icc im) (fun c => pixel m im (x + i) (y + j) c)) mod W32) /\
    ProjectionProfile m im x y w h false = Ok p.
Proof.
  intros Hb [W R] B.
  destruct (SimdProjection_vertical b (isa b fl) m im x y w h) as (p & E & L & V); auto using isa_usable.
  exists p. split; [exact E|]. split; [exact L|]. split; [exact V|].
  destruct (C19_vertical m im x y w h (conj W R)) as (q & Eq & Lq & Vq).
  rewrite Eq. f_equal. apply (nth_ext _ _ 0 0); [congruence|].
  intros k Hk. assert (G : forall l, nth k l 0 = entry l (Z.of_nat k)) by (intros l; unfold entry; rewrite Nat2Z.id; reflexivity).
  rewrite !G, V, Vq by lia. reflexivity.
Qed.
Theorem C37_horizontal b fl m im x y w h :
  isa b fl = sse \/ isa b fl = cpu -> area m im x y w h -> bytes m im ->
  exists p, SimdProjectionProfile b (isa b fl) m im x y w h true = Ok p /\ length p = Z.to_nat (w * icc im) /\
    (forall i c, 0 <= i < w -> 0 <= c < icc im ->
      entry p (i * icc im + c) = zsum h (fun j => pixel m im (x + i) (y + j) c) mod W32) /\
    ProjectionProfile m im x y w h true = Ok p.
Proof.
  intros Ht [W R] B.
  destruct (SimdProjection_horizontal b (isa b fl) m im x y w h) as (p & E & L & V); auto using isa_usable; [tauto|].
  exists p. split; [exact E|]. split; [exact L|]. split; [exact V|].
  destruct (C19_horizontal m im x y w h (conj W R)) as (q & Eq & Lq & Vq).
  rewrite Eq. f_equal. apply (nth_ext _ _ 0 0); [congruence|].
  intros k Hk. pose proof (wf_cc_pos _ _ W) as Hc. assert (Hw : 0 < w) by apply R.
  assert (G : forall l, nth k l 0 = entry l (Z.of_nat k)) by (intros l; unfold entry; rewrite Nat2Z.id; reflexivity).
  set (K := Z.of_nat k) in *. assert (HK : 0 <= K < w * icc im) by (subst K; lia).
  assert (Hd : K = K / icc im * icc im + K mod icc im) by (pose proof (Z.div_mod K (icc im)); lia).
  assert (0 <= K mod icc im < icc im) by (apply Z.mod_pos_bound; lia).
  assert (0 <= K / icc im < w) by (split; [apply Z.div_pos; lia|apply Z.div_lt_upper_bound; lia]).
  rewrite !G, Hd, V, Vq by assumption. reflexivity.
Qed.
Theorem C37_rejects b fl m im x y w h hz :
  args_u32 im x y w h -> ~ valid_arg im x y w h ->
  rejected (SimdProjectionProfile b (isa b fl) m im x y w h hz) m /\ rejected (ProjectionProfile m im x y w h hz) m.
Proof.
  intros U V. split; [apply SimdProjection_rejects; apply args_bad; assumption|].
  unfold rejected, ProjectionProfile. rewrite args_bad by assumption. reflexivity.
Qed.
Example C37_case : isa ssse3_build all_flags = sse /\ area emem (img 1 20 4 3 64) 2 1 17 3 /\ bytes emem (img 1 20 4 3 64).
Proof. split; [reflexivity|]. split; [solve_area|apply emem_bytes]. Qed.
Print Assumptions C37_vertical.
Print Assumptions C37_horizontal.
Print Assumptions C37_rejects.

Definition C38_claim (t : simd_type) : Prop := forall b fl m im x y w h,
  isa b fl = t -> build_ok b = true -> area m im x y w h -> bytes m im ->
  SimdProjectionProfile b (isa b fl) m im x y w h true = ProjectionProfile m im x y w h true.
Ltac refute_projection b t n H :=
  specialize (H b all_flags emem (img 1 n 2 1 n) 0 0 n 2);
  refine (differ_neq (SimdProjectionProfile b t emem (img 1 n 2 1 n) 0 0 n 2 true)
            (ProjectionProfile emem (img 1 n 2 1 n) 0 0 n 2 true) _ (H _ _ _ _));
  [vm_compute; reflexivity|reflexivity|reflexivity|closed_area|apply emem_bytes].
Theorem C38_avx_horizontal_refuted : ~ C38_claim avx.
Proof. intros H. refute_projection avx_build avx 32 H. Qed.
Theorem C38_avx512_horizontal_refuted : ~ C38_claim avx512.
Proof. intros H. refute_projection avx512_build avx512 64 H. Qed.
Theorem C38_neon_horizontal_refuted : ~ C38_claim neon.
Proof. intros H. refute_projection neon_build neon 16 H. Qed.
Print Assumptions C38_avx_horizontal_refuted.
Print Assumptions C38_avx512_horizontal_refuted.
Print Assumptions C38_neon_horizontal_refuted.

(** ** C39, C40: bit depth conversions *)

(** What each function stores: every sample times 256, every sample divided by 256. *)
Theorem C39_to_16bit b fl m inp xi yi out xo yo w h :
  isa b fl = neon \/ isa b fl = cpu ->
  area m inp xi yi w h -> area m out xo yo w h -> icc inp = icc out -> bytes m inp ->
  xi = 0 \/ icc inp = 1 -> disjoint out xo yo w h inp xi yi w h ->
  writes (SimdConvertTo16Bit b (isa b fl) m inp xi yi out xo yo w h) m out xo yo w h
    (fun i j c => 256 * pixel m inp (xi + i) (yi + j) c) /\
  same_result (SimdConvertTo16Bit b (isa b fl) m inp xi yi out xo yo w h) (ConvertTo16Bit m inp xi yi out xo yo w h).
Proof.
  intros Ht A1 Ao C B X D.
  assert (Hsc := C12_to_16bit m inp xi yi out xo yo w h A1 Ao C B X D).
  assert (Hv : writes (SimdConvertTo16Bit b (isa b fl) m inp xi yi out xo yo w h) m out xo yo w h
    (fun i j c => 256 * pixel m inp (xi + i) (yi + j) c)).
  { destruct A1 as [W1 R1], Ao as [Wo Ro]. eapply writes_ext.
    - apply SimdConvertTo16Bit_writes; auto using isa_usable, hazard_of_disjoint; tauto.
    - intros i j c Hi. cbv beta. pose proof (bytes_at m inp xi yi w h i j c B R1) as P. rewrite C in P. specialize (P Hi).
      rewrite Z.shiftl_mul_pow2 by lia. change (2 ^ 8) with 256. unfold u16. rewrite Z.mod_small; lia. }
  split; [exact Hv|]. exact (writes_same _ _ m out xo yo w h _ Ao Hv Hsc).
Qed.
Theorem C39_to_8bit b fl m inp xi yi out xo yo w h :
  isa b fl = neon \/ isa b fl = sse \/ isa b fl = cpu ->
  area m inp xi yi w h -> area m out xo yo w h -> icc inp = icc out -> words m inp ->
  xi = 0 \/ icc inp = 1 -> disjoint out xo yo w h inp xi yi w h ->
  writes (SimdConvertTo8Bit b (isa b fl) m inp xi yi out xo yo w h) m out xo yo w h
    (fun i j c => pixel m inp (xi + i) (yi + j) c / 256) /\
  same_result (SimdConvertTo8Bit b (isa b fl) m inp xi yi out xo yo w h) (ConvertTo8Bit m inp xi yi out xo yo w h).
Proof.
  intros Ht A1 Ao C B X D.
  assert (Hsc := C12_to_8bit m inp xi yi out xo yo w h A1 Ao C B X D).
  assert (Hv : writes (SimdConvertTo8Bit b (isa b fl) m inp xi yi out xo yo w h) m out xo yo w h
    (fun i j c => pixel m inp (xi + i) (yi + j) c / 256)).
  { destruct A1 as [W1 R1], Ao as [Wo Ro]. eapply writes_ext.
    - apply SimdConvertTo8Bit_writes; auto using isa_usable, hazard_of_disjoint; [tauto|].
      intros i j c Hi. apply (words_at m inp xi yi w h); auto.
    - intros i j c Hi. cbv beta. pose proof (words_at m inp xi yi w h i j c B R1) as P. rewrite C in P. specialize (P Hi).
      rewrite Z.shiftr_div_pow2 by lia. change (2 ^ 8) with 256. unfold u8. rewrite Z.mod_small; lia. }
  split; [exact Hv|]. exact (writes_same _ _ m out xo yo w h _ Ao Hv Hsc).
Qed.
(** The scalar and the vector function share the start column defect of C13, so they agree for every
    start column of colour images too, provided the images are separate. *)
Theorem C39_any_column b fl m inp xi yi out xo yo w h :
  area m inp xi yi w h -> area m out xo yo w h -> icc inp = icc out -> fst (ibase inp) <> fst (ibase out) ->
  (isa b fl = neon \/ isa b fl = cpu -> bytes m inp ->
   same_result (SimdConvertTo16Bit b (isa b fl) m inp xi yi out xo yo w h) (ConvertTo16Bit m inp xi yi out xo yo w h)) /\
  (isa b fl = neon \/ isa b fl = sse \/ isa b fl = cpu -> words m inp ->
   same_result (SimdConvertTo8Bit b (isa b fl) m inp xi yi out xo yo w h) (ConvertTo8Bit m inp xi yi out xo yo w h)).
Proof.
  intros [W1 R1] [Wo Ro] C D. split; intros Ht B.
  - destruct (SimdConvertTo16Bit_offset b (isa b fl) m inp xi yi out xo yo w h) as [H1 H2]; auto using isa_usable; [tauto|].
    exact (writes_same _ _ m out xo yo w h _ (conj Wo Ro) H1 H2).
  - destruct (SimdConvertTo8Bit_offset b (isa b fl) m inp xi yi out xo yo w h) as [H1 H2]; auto using isa_usable; [tauto|].
    exact (writes_same _ _ m out xo yo w h _ (conj Wo Ro) H1 H2).
Qed.
Theorem C39_rejects b fl m inp xi yi out xo yo w h :
  args_u32 inp xi yi w h -> args_u32 out xo yo w h ->
  ~ (valid_arg inp xi yi w h /\ valid_arg out xo yo w h) \/ icc inp <> icc out ->
  rejected (SimdConvertTo16Bit b (isa b fl) m inp xi yi out xo yo w h) m /\ rejected (ConvertTo16Bit m inp xi yi out xo yo w h) m /\
  rejected (SimdConvertTo8Bit b (isa b fl) m inp xi yi out xo yo w h) m /\ rejected (ConvertTo8Bit m inp xi yi out xo yo w h) m.
Proof.
  intros U1 Uo Hbad.
  assert (HG : valid_roi inp xi yi w h && valid_roi out xo yo w h && (icc inp =? icc out) = false).
  { destruct Hbad as [Hbad|Hbad].
    - pose proof (bad2 inp xi yi out xo yo w h U1 Uo Hbad) as E. unfold valid_roi2 in E. rewrite E. reflexivity.
    - apply andb_false_iff. right. apply Z.eqb_neq. exact Hbad. }
  destruct (SimdConvert_rejects b (isa b fl) m inp xi yi out xo yo w h HG) as [H1 H2].
  destruct (SimdConvert_rejects b cpu m inp xi yi out xo yo w h HG) as [H3 H4].
  unfold rejected. auto.
Qed.
Example C39_case : isa neon_build all_flags = neon /\ area emem (img 1 20 4 3 64) 0 1 17 3 /\
  area emem (img 2 20 4 3 64) 2 1 17 3 /\ bytes emem (img 1 20 4 3 64) /\
  disjoint (img 2 20 4 3 64) 2 1 17 3 (img 1 20 4 3 64) 0 1 17 3 /\
  fst (ibase (img 1 20 4 3 64)) <> fst (ibase (img 2 20 4 3 64)).
Proof.
  split; [reflexivity|]. split; [solve_area|]. split; [solve_area|]. split; [apply emem_bytes|].
  split; [solve_disjoint|discriminate].
Qed.
Print Assumptions C39_to_16bit.
Print Assumptions C39_to_8bit.
Print Assumptions C39_any_column.
Print Assumptions C39_rejects.

Definition C40_claim_to_16bit (t : simd_type) : Prop := forall b fl m inp xi yi out xo yo w h,
  isa b fl = t -> build_ok b = true ->
  area m inp xi yi w h -> area m out xo yo w h -> icc inp = icc out -> bytes m inp ->
  disjoint out xo yo w h inp xi yi w h ->
  same_result (SimdConvertTo16Bit b (isa b fl) m inp xi yi out xo yo w h) (ConvertTo16Bit m inp xi yi out xo yo w h).
Definition C40_claim_to_8bit (t : simd_type) : Prop := forall b fl m inp xi yi out xo yo w h,
  isa b fl = t -> build_ok b = true ->
  area m inp xi yi w h -> area m out xo yo w h -> icc inp = icc out -> words m inp ->
  disjoint out xo yo w h inp xi yi w h ->
  same_result (SimdConvertTo8Bit b (isa b fl) m inp xi yi out xo yo w h) (ConvertTo8Bit m inp xi yi out xo yo w h).
(** Comparing two memories at one address. *)
Definition differ_at {E} (p : ptr) (r1 r2 : res E mem) : bool :=
  match r1, r2 with
  | Ok a, Ok b => negb (get a p =? get b p)
  | _, _ => false
  end.
Lemma differ_at_neq {E} p (r1 r2 : res E mem) : differ_at p r1 r2 = true -> ~ same_result r1 r2.
Proof.
  intros H (m1 & m2 & -> & -> & G & _). cbn [differ_at] in H. rewrite (G p), Z.eqb_refl in H. discriminate H.
Qed.
(** 16-bit samples with distinct high bytes. *)
Definition wmem : mem := fun b => mkBlock 1024 (fun o => if b =? 1 then 256 * (o mod 256) else 0).
Lemma wmem_words im : words wmem im.
Proof.
  intros x y c _ _ _. unfold pixel, get, wmem. cbn [bget]. destruct (_ =? 1); [|lia].
  pose proof (Z.mod_pos_bound (snd (px im x y c)) 256). lia.
Qed.
Ltac refute_conv f g b t n m p H :=
  specialize (H b all_flags m (img 1 n 1 1 n) 0 0 (img 2 n 1 1 n) 0 0 n 1);
  refine (differ_at_neq p (f b t m (img 1 n 1 1 n) 0 0 (img 2 n 1 1 n) 0 0 n 1)
            (g m (img 1 n 1 1 n) 0 0 (img 2 n 1 1 n) 0 0 n 1) _ (H _ _ _ _ _ _ _));
  [vm_compute; reflexivity|reflexivity|reflexivity|closed_area|closed_area|reflexivity| |solve_disjoint].
(** On x86 each packet writes its low half twice ([_mm_unpacklo] for both stores). *)
Theorem C40_sse_to_16bit_refuted : ~ C40_claim_to_16bit sse.
Proof. intros H. refute_conv SimdConvertTo16Bit ConvertTo16Bit sse_build sse 16 ramp (2, 8) H. apply ramp_bytes. Qed.
Theorem C40_avx_to_16bit_refuted : ~ C40_claim_to_16bit avx.
Proof. intros H. refute_conv SimdConvertTo16Bit ConvertTo16Bit avx_build avx 32 ramp (2, 16) H. apply ramp_bytes. Qed.
Theorem C40_avx512_to_16bit_refuted : ~ C40_claim_to_16bit avx512.
Proof. intros H. refute_conv SimdConvertTo16Bit ConvertTo16Bit avx512_build avx512 64 ramp (2, 32) H. apply ramp_bytes. Qed.
(** The AVX pack instructions work within 128-bit lanes. *)
Theorem C40_avx_to_8bit_refuted : ~ C40_claim_to_8bit avx.
Proof. intros H. refute_conv SimdConvertTo8Bit ConvertTo8Bit avx_build avx 32 wmem (2, 8) H. apply wmem_words. Qed.
Theorem C40_avx512_to_8bit_refuted : ~ C40_claim_to_8bit avx512.
Proof. intros H. refute_conv SimdConvertTo8Bit ConvertTo8Bit avx512_build avx512 64 wmem (2, 8) H. apply wmem_words. Qed.
Print Assumptions C40_sse_to_16bit_refuted.
Print Assumptions C40_avx_to_16bit_refuted.
Print Assumptions C40_avx512_to_16bit_refuted.
Print Assumptions C40_avx_to_8bit_refuted.
Print Assumptions C40_avx512_to_8bit_refuted.

(** ** C41, C42: ConvertToRgb, Flip, RgbToBgr *)

Theorem C41_to_rgb b fl m inp xi yi out xo yo w h :
  build_ok b = true -> b_neon b = true \/ b_ssse3 b = true ->
  area m inp xi yi w h -> area m out xo yo w h -> icc inp = 1 -> icc out = 3 ->
  disjoint out xo yo w h inp xi yi w h ->
  writes (SimdConvertToRgb b (isa b fl) m inp xi yi out xo yo w h) m out xo yo w h
    (fun i j c => pixel m inp (xi + i) (yi + j) 0) /\
  same_result (SimdConvertToRgb b (isa b fl) m inp xi yi out xo yo w h) (ConvertToRgb m inp xi yi out xo yo w h).
Proof.
  intros Hb Hs A1 Ao C Co D.
  assert (Hsc := C14_to_rgb m inp xi yi out xo yo w h A1 Ao C Co D).
  assert (Hv : writes (SimdConvertToRgb b (isa b fl) m inp xi yi out xo yo w h) m out xo yo w h
    (fun i j c => pixel m inp (xi + i) (yi + j) 0)).
  { destruct A1, Ao. apply SimdConvertToRgb_writes; auto using isa_usable. tauto. }
  split; [exact Hv|]. exact (writes_same _ _ m out xo yo w h _ Ao Hv Hsc).
Qed.
(** A colour input is copied, exactly as by the scalar function, whatever the build. *)
Theorem C41_to_rgb_copy b fl m inp xi yi out xo yo w h :
  icc inp = 3 ->
  SimdConvertToRgb b (isa b fl) m inp xi yi out xo yo w h = ConvertToRgb m inp xi yi out xo yo w h.
Proof.
  intros C. generalize (isa b fl). intros t. unfold SimdConvertToRgb, twice, ConvertToRgb.
  rewrite C. change (3 =? RGB) with true. cbv iota.
  destruct (valid_roi2 inp xi yi out xo yo w h), (is_rgb out); cbv iota;
    destruct t; cbn [is_cpu is_avx is_avx512 is_neon orb andb];
    repeat match goal with |- context [if ?c then _ else _] => destruct c end; reflexivity.
Qed.
Theorem C41_flip b fl m inp xi yi out xo yo w h hor ver :
  build_ok b = true -> b_neon b = true \/ b_ssse3 b = true ->
  area m inp xi yi w h -> area m out xo yo w h -> icc inp = 1 -> icc out = 1 ->
  disjoint out xo yo w h inp xi yi w h ->
  writes (SimdFlip b (isa b fl) m inp xi yi out xo yo w h hor ver) m out xo yo w h
    (fun i j c => pixel m inp (xi + (if hor then w - 1 - i else i)) (yi + (if ver then h - 1 - j else j)) c) /\
  same_result (SimdFlip b (isa b fl) m inp xi yi out xo yo w h hor ver) (Flip m inp xi yi out xo yo w h hor ver).
Proof.
  intros Hb Hs A1 Ao C Co D. assert (A := Ao). destruct A1, Ao.
  assert (Hv := SimdFlip_writes b (isa b fl) m inp xi yi out xo yo w h hor ver).
  lapply Hv; [clear Hv; intros Hv|apply isa_usable].
  assert (Hv' := Hv Hb ltac:(tauto)). clear Hv. repeat (lapply Hv'; [clear Hv'; intros Hv'|assumption]).
  split; [exact Hv'|]. apply (writes_same _ _ m out xo yo w h _ A Hv').
  apply Flip_writes; assumption.
Qed.
Theorem C41_rgb_to_bgr b fl m inp xi yi out xo yo w h :
  build_ok b = true -> b_neon b = true \/ b_ssse3 b = true ->
  area m inp xi yi w h -> area m out xo yo w h -> icc inp = 3 -> icc out = 3 ->
  disjoint out xo yo w h inp xi yi w h ->
  writes (SimdRgbToBgr b (isa b fl) m inp xi yi out xo yo w h) m out xo yo w h
    (fun i j c => pixel m inp (xi + i) (yi + j) (2 - c)) /\
  same_result (SimdRgbToBgr b (isa b fl) m inp xi yi out xo yo w h) (RgbToBgr m inp xi yi out xo yo w h).
Proof.
  intros Hb Hs A1 Ao C Co D. assert (A := Ao). destruct A1, Ao.
  assert (Hv : writes (SimdRgbToBgr b (isa b fl) m inp xi yi out xo yo w h) m out xo yo w h
    (fun i j c => pixel m inp (xi + i) (yi + j) (2 - c))).
  { apply SimdRgbToBgr_writes; auto using isa_usable. tauto. }
  split; [exact Hv|]. apply (writes_same _ _ m out xo yo w h _ A Hv).
  apply RgbToBgr_writes; assumption.
Qed.
Theorem C41_rejects b fl m inp xi yi out xo yo w h hor ver :
  args_u32 inp xi yi w h -> args_u32 out xo yo w h ->
  ~ (valid_arg inp xi yi w h /\ valid_arg out xo yo w h) ->
  rejected (SimdConvertToRgb b (isa b fl) m inp xi yi out xo yo w h) m /\
  rejected (SimdFlip b (isa b fl) m inp xi yi out xo yo w h hor ver) m /\
  rejected (SimdRgbToBgr b (isa b fl) m inp xi yi out xo yo w h) m.
Proof.
  intros U1 Uo Hbad. pose proof (bad2 inp xi yi out xo yo w h U1 Uo Hbad) as E.
  generalize (isa b fl). intros t. unfold rejected, SimdConvertToRgb, SimdFlip, SimdRgbToBgr, twice, ConvertToRgb, Flip, RgbToBgr.
  rewrite E.
  destruct t; cbn [is_cpu is_avx is_avx512 is_neon orb andb]; (split; [|split]);
    repeat match goal with |- context [if ?c then _ else _] => destruct c end; reflexivity.
Qed.
Theorem C41_rejects_colour b fl m inp xi yi out xo yo w h hor ver :
  (icc out <> 3 -> rejected (SimdConvertToRgb b (isa b fl) m inp xi yi out xo yo w h) m) /\
  (icc inp <> 1 \/ icc out <> 1 -> rejected (SimdFlip b (isa b fl) m inp xi yi out xo yo w h hor ver) m) /\
  (icc inp <> 3 \/ icc out <> 3 -> rejected (SimdRgbToBgr b (isa b fl) m inp xi yi out xo yo w h) m).
Proof.
  generalize (isa b fl). intros t. unfold rejected, SimdConvertToRgb, SimdFlip, SimdRgbToBgr, twice, ConvertToRgb, Flip, RgbToBgr.
  split; [|split].
  - intros C. assert (E : is_rgb out = false) by (apply Z.eqb_neq; exact C). rewrite E.
    destruct t; cbn [is_cpu is_avx is_avx512 is_neon orb andb];
      repeat match goal with |- context [if ?c then _ else _] => destruct c end; reflexivity.
  - intros C. assert (E : is_gray inp && is_gray out = false).
    { destruct C as [C|C]; [|apply andb_false_intro2]; [apply andb_false_intro1|]; apply Z.eqb_neq; exact C. }
    rewrite E.
    destruct t; cbn [is_cpu is_avx is_avx512 is_neon orb andb];
      repeat match goal with |- context [if ?c then _ else _] => destruct c end; reflexivity.
  - intros C. assert (E : is_rgb inp && is_rgb out = false).
    { destruct C as [C|C]; [|apply andb_false_intro2]; [apply andb_false_intro1|]; apply Z.eqb_neq; exact C. }
    rewrite E.
    destruct t; cbn [is_cpu is_avx is_avx512 is_neon orb andb];
      repeat match goal with |- context [if ?c then _ else _] => destruct c end; reflexivity.
Qed.
Example C41_case : build_ok avx_build = true /\ b_ssse3 avx_build = true /\
  area emem (img 1 40 4 1 40) 1 1 35 3 /\ area emem (img 2 36 3 3 120) 0 0 35 3 /\
  disjoint (img 2 36 3 3 120) 0 0 35 3 (img 1 40 4 1 40) 1 1 35 3.
Proof. split; [reflexivity|]. split; [reflexivity|]. split; [solve_area|]. split; [solve_area|solve_disjoint]. Qed.
Print Assumptions C41_to_rgb.
Print Assumptions C41_to_rgb_copy.
Print Assumptions C41_flip.
Print Assumptions C41_rgb_to_bgr.
Print Assumptions C41_rejects.
Print Assumptions C41_rejects_colour.

(** Returns normally for valid separate images of the right colour, on every build. *)
Definition C42_claim (colour_in colour_out : Z)
    (f : build -> simd_type -> mem -> image -> Z -> Z -> image -> Z -> Z -> Z -> Z -> res mem mem) : Prop :=
  forall b fl m inp xi yi out xo yo w h, build_ok b = true ->
  area m inp xi yi w h -> area m out xo yo w h -> icc inp = colour_in -> icc out = colour_out ->
  disjoint out xo yo w h inp xi yi w h ->
  exists m', f b (isa b fl) m inp xi yi out xo yo w h = Ok m'.
Lemma not_ok {E A} (r : res E A) : ok_res r = false -> ~ (exists x, r = Ok x).
Proof. intros H [x ->]. discriminate H. Qed.
Ltac refute_build f ci co H :=
  specialize (H sse_build all_flags emem (img 1 20 1 ci (20 * ci)) 0 0 (img 2 20 1 co (20 * co)) 0 0 20 1);
  refine (not_ok (f sse_build sse emem (img 1 20 1 ci (20 * ci)) 0 0 (img 2 20 1 co (20 * co)) 0 0 20 1) _ (H _ _ _ _ _ _));
  [vm_compute; reflexivity|reflexivity|closed_area|closed_area|reflexivity|reflexivity|solve_disjoint].
(** A build with SSE2 but not SSSE3 (the x86-64 default) throws. *)
Theorem C42_to_rgb_refuted : ~ C42_claim 1 3 SimdConvertToRgb.
Proof. intros H. refute_build SimdConvertToRgb 1 3 H. Qed.
Theorem C42_flip_refuted : ~ C42_claim 1 1 (fun b t m inp xi yi out xo yo w h => SimdFlip b t m inp xi yi out xo yo w h true false).
Proof.
  intros H. refute_build (fun b t m inp xi yi out xo yo w h => SimdFlip b t m inp xi yi out xo yo w h true false) 1 1 H.
Qed.
Theorem C42_rgb_to_bgr_refuted : ~ C42_claim 3 3 SimdRgbToBgr.
Proof. intros H. refute_build SimdRgbToBgr 3 3 H. Qed.
Print Assumptions C42_to_rgb_refuted.
Print Assumptions C42_flip_refuted.
Print Assumptions C42_rgb_to_bgr_refuted.
