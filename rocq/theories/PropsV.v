(** Properties C132 to C141: the OpenCL back end.
    [device_run] is explained in PropsU.v.  [cl_ok] and [cl_roomy] are defined in
    OpenCLProofs.v: the work-group size reported for a kernel is positive, and the device
    allows a group of that size along one direction. *)
From Coq Require Import ZArith List Bool Lia.
From Verif Require Import Base Image Spec BaseProofs ImgFun ImgLemmas ImgProofs SafeProofs ReduceProofs
  PropsA PropsB Cuda CudaProofs CudaRuns CudaSums PropsU OpenCL OpenCLProofs OpenCLRuns OpenCLSums.
From Verif Require ContainerProofs.
Import ListNotations.
Open Scope Z_scope.

Ltac Zify.zify_post_hook ::= idtac.

(** A device with groups of 256 work-items, and the smallest device. *)
Definition cl256 : cldevice := mkCl 256 (mkDim3 256 256 256).
Definition cl1 : cldevice := mkCl 1 (mkDim3 1 1 1).
Lemma cl256_ok : cl_ok cl256.
Proof. constructor; cbn; [split; [lia|reflexivity]|unfold dim_pos; cbn; lia]. Qed.
Lemma cl256_roomy : cl_roomy cl256.
Proof. unfold cl_roomy. cbn. lia. Qed.
Lemma cl1_ok : cl_ok cl1.
Proof. constructor; cbn; [split; [lia|reflexivity]|unfold dim_pos; cbn; lia]. Qed.
Lemma cl1_roomy : cl_roomy cl1.
Proof. unfold cl_roomy. cbn. lia. Qed.

(** *** Two statements about one call *)
Lemma turns_count n K i : (i < n)%nat -> (K <= count_occ Nat.eq_dec (concat (repeat (seq 0 n) K)) i)%nat.
Proof.
  intros Hi. induction K as [|K IH]; cbn [repeat concat]; [lia|]. rewrite count_occ_app.
  assert (H : (0 < count_occ Nat.eq_dec (seq 0 n) i)%nat) by (apply count_occ_In, in_seq; lia). lia.
Qed.
Lemma device_run_both {A} (fits : Prop) m (call : list nat -> res mem A) Q1 Q2 :
  device_run fits m call Q1 -> device_run fits m call Q2 -> fits -> exists a, Q1 a /\ Q2 a.
Proof.
  intros [(n & H1 & K & HK)|[C _]] [(n' & H2 & _)|[C' _]] Hf; try contradiction.
  set (s := concat (repeat (seq 0 n) K)).
  assert (Hs : call s <> Timeout) by (apply HK; intros i Hi; apply turns_count, Hi).
  destruct (H1 s) as [E|(a & E & Ha)]; [contradiction|].
  destruct (H2 s) as [E'|(a' & E' & Ha')]; [contradiction|]. rewrite E in E'. injection E' as <-. eauto.
Qed.
Lemma device_run_ub {A} (fits : Prop) m (call : list nat -> res mem A) Q s : device_run fits m call Q -> call s <> UB.
Proof.
  intros [(n & H & _)|[_ H]] E.
  - destruct (H s) as [E'|(a & E' & _)]; congruence.
  - destruct (H s) as (M & E' & _). congruence.
Qed.
Lemma device_run_throw {A} (fits : Prop) m (call : list nat -> res mem A) Q s M : device_run fits m call Q -> fits -> call s <> Throw M.
Proof.
  intros [(n & H & _)|[C _]] Hf E; [|contradiction].
  destruct (H s) as [E'|(a & E' & _)]; congruence.
Qed.

(** ** C132: the geometry of a launch *)

(** What clEnqueueNDRangeKernel asks of the local size, and what the kernels need. *)
Definition local_ok (d : cldevice) (r : ndrange) : Prop :=
  (1 <= dx (rLocal r) /\ 1 <= dy (rLocal r) /\ 1 <= dz (rLocal r)) /\
  (exists a b c, dx (rGlobal r) = a * dx (rLocal r) /\ dy (rGlobal r) = b * dy (rLocal r) /\ dz (rGlobal r) = c * dz (rLocal r)) /\
  dx (rLocal r) * dy (rLocal r) * dz (rLocal r) <= clThreads d.

Lemma div_of_mod a b : 1 <= b -> a mod b = 0 -> a = a / b * b.
Proof. intros Hb H. pose proof (Z.div_mod a b ltac:(lia)). lia. Qed.
Lemma accepts_local d r : cl_accepts d r = true -> local_ok d r.
Proof.
  intros H. apply cl_accepts_iff in H as (_ & (L1 & L2 & L3) & (M1 & M2 & M3) & _ & P).
  split; [lia|]. split; [|exact P].
  exists (dx (rGlobal r) / dx (rLocal r)), (dy (rGlobal r) / dy (rLocal r)), (dz (rGlobal r) / dz (rLocal r)).
  split; [|split]; apply div_of_mod; assumption.
Qed.
Lemma count_zrange n x : 0 <= x < n -> count_occ Z.eq_dec (zrange n) x = 1%nat.
Proof. intros H. apply NoDup_count_occ'; [apply zrange_NoDup|apply zrange_In; lia]. Qed.

Theorem C132_two_dimensions d w h : cl_ok d -> 0 < w < W32 -> 0 < h < W32 ->
  exists r, (forall E : Type, @kernelParameters2 E d w h = Ok r) /\
    (forall x y, 0 <= x < w -> 0 <= y < h -> count_occ pair_eq_dec (cl_items r) (x, y) = 1%nat) /\
    (forall x y, In (x, y) (cl_items r) -> 0 <= x /\ 0 <= y) /\
    (cl_accepts d r = true -> local_ok d r) /\
    (cl_roomy d -> cl_accepts d r = true) /\
    (cl_accepts d r = false -> forall sched m k, cl_launch2D d sched m w h k = Throw m).
Proof.
  intros Hd Hw Hh. assert (P : W32 < 2 ^ 62) by (vm_compute; reflexivity).
  destruct (params2_ok d w h Hd) as (r & H & Gx & Gy & _ & _ & Ha); [lia|lia|].
  exists r. split; [exact H|]. split; [|split; [|split; [apply accepts_local|split; [exact Ha|]]]].
  - intros x y Hx Hy. apply NoDup_count_occ'.
    + apply NoDup_list_prod; apply zrange_NoDup.
    + apply in_prod; apply zrange_In; lia.
  - intros x y Hin. unfold cl_items in Hin. apply in_prod_iff in Hin as [Hx Hy]. apply zrange_In in Hx, Hy. lia.
  - intros E s m k. unfold cl_launch2D. rewrite H. cbn [bind]. rewrite E. reflexivity.
Qed.
Theorem C132_one_dimension d n : cl_ok d -> 0 < n < W64 / 4 ->
  exists r, (forall E : Type, @kernelParameters1 E d n = Ok r) /\
    (forall x, 0 <= x < n -> count_occ Z.eq_dec (zrange (dx (rGlobal r))) x = 1%nat) /\
    (cl_accepts d r = true -> local_ok d r) /\
    (cl_roomy d -> cl_accepts d r = true) /\
    (cl_accepts d r = false -> forall sched m k, cl_launch1D d sched m n k = Throw m).
Proof.
  intros Hd Hn. change (W64 / 4) with (2 ^ 62) in Hn.
  destruct (params1_ok d n Hd Hn) as (r & H & Gx & _ & Ha).
  exists r. split; [exact H|]. split; [|split; [apply accepts_local|split; [exact Ha|]]].
  - intros x Hx. apply count_zrange. lia.
  - intros E s m k. unfold cl_launch1D. rewrite H. cbn [bind]. rewrite E. reflexivity.
Qed.
(** The three-dimensional launch has no caller in the library. *)
Theorem C132_three_dimensions d x y z : cl_ok d -> 0 < x < W32 -> 0 < y < W32 -> 0 < z < W32 ->
  exists r, (forall E : Type, @kernelParameters3 E d x y z = Ok r) /\ local_ok d r /\
    (forall n axis_, In (n, axis_) [(x, dx (rGlobal r)); (y, dy (rGlobal r)); (z, dz (rGlobal r))] ->
       forall k, 0 <= k < n -> count_occ Z.eq_dec (zrange axis_) k = 1%nat) /\
    (cl_roomy d -> clThreads d <= dz (clItems d) -> cl_accepts d r = true).
Proof.
  intros Hd Hx Hy Hz. pose proof Hd as [Ht Hi]. assert (P : W32 < 2 ^ 62) by (vm_compute; reflexivity).
  assert (P' : 2 ^ 60 < 2 ^ 62) by (apply Z.pow_lt_mono_r; lia).
  destruct (cl_threads3_ok (clThreads d) Ht) as (a & b & c & E & Pa & Pb & Pc & Pm).
  assert (Hab : 1 <= a * b) by nia.
  assert (La : a <= clThreads d) by nia. assert (Lb : b <= clThreads d) by nia. assert (Lc : c <= clThreads d) by nia.
  destruct (round_up_ok x a) as (gx & Ex & Bx & Mx); [lia|lia|].
  destruct (round_up_ok y b) as (gy & Ey & By & My); [lia|lia|].
  destruct (round_up_ok z c) as (gz & Ez & Bz & Mz); [lia|lia|].
  exists (mkRange (mkDim3 gx gy gz) (mkDim3 a b c)). cbn [rGlobal dx dy dz].
  split; [|split; [|split]].
  - intros E0. unfold kernelParameters3. rewrite E. cbn [bind dx dy dz]. rewrite Ex, Ey, Ez. reflexivity.
  - unfold local_ok. cbn [rGlobal rLocal dx dy dz]. split; [lia|]. split; [|exact Pm].
    exists (gx / a), (gy / b), (gz / c). split; [|split]; apply div_of_mod; assumption.
  - intros n ax [Eq|[Eq|[Eq|[]]]] k Hk; injection Eq as <- <-; apply count_zrange; lia.
  - intros [R1 R2] R3. apply cl_accepts_iff. cbn [rGlobal rLocal dx dy dz]. lia.
Qed.
Example C132_case : cl_ok cl256 /\ cl_roomy cl256 /\
  @kernelParameters2 unit cl256 1920 1080 = Ok (mkRange (mkDim3 1920 1088 1) (mkDim3 16 16 1)) /\
  @kernelParameters1 unit cl256 1000 = Ok (mkRange (mkDim3 1024 1 1) (mkDim3 256 1 1)) /\
  @kernelParameters3 unit cl256 100 50 10 = Ok (mkRange (mkDim3 104 56 12) (mkDim3 8 8 4)).
Proof. split; [apply cl256_ok|]. split; [apply cl256_roomy|]. repeat split; vm_compute; reflexivity. Qed.
(** penguinV does not ask for the limits along each direction: a device that allows groups of
    256 work-items but no more than 128 along x takes the images and refuses the lists. *)
Example C132_refused : let d := mkCl 256 (mkDim3 128 128 128) in cl_ok d /\
  (exists r, @kernelParameters2 unit d 1920 1080 = Ok r /\ cl_accepts d r = true) /\
  (forall sched m k, cl_launch1D d sched m 1000 k = Throw m).
Proof.
  cbv zeta. split; [constructor; cbn; [split; [lia|reflexivity]|unfold dim_pos; cbn; lia]|].
  split; [eexists; split; vm_compute; reflexivity|]. intros. reflexivity.
Qed.
Print Assumptions C132_two_dimensions.
Print Assumptions C132_one_dimension.
Print Assumptions C132_three_dimensions.

(** ** C133: functions that are right under every interleaving *)
Definition cl_call2 : Type :=
  cldevice -> list nat -> mem -> image -> Z -> Z -> image -> Z -> Z -> image -> Z -> Z -> Z -> Z -> res mem mem.
Definition cl_two_input_functions : list (cl_call2 * (Z -> Z -> Z)) :=
  [(cl_AbsoluteDifference, fun a b => Z.abs (a - b));
   (cl_BitwiseAnd, Z.land);
   (cl_BitwiseOr, Z.lor);
   (cl_BitwiseXor, Z.lxor);
   (cl_Maximum, Z.max);
   (cl_Minimum, Z.min);
   (cl_Subtract, fun a b => Z.max (a - b) 0)].

Lemma cl_two_input_model F f : In (F, f) cl_two_input_functions ->
  exists g, F = cl2 g /\ forall a b, 0 <= a < 256 -> 0 <= b < 256 -> g a b = f a b.
Proof.
  unfold cl_two_input_functions. cbn [In].
  intros [E|[E|[E|[E|[E|[E|[E|[]]]]]]]]; injection E as <- <-; eexists; (split; [reflexivity|]); intros a b Ha Hb; try reflexivity.
  - unfold absdiff_k, u8. destruct (Z.ltb_spec b a); rewrite Z.mod_small; lia.
  - unfold max_k. destruct (Z.ltb_spec b a); lia.
  - unfold min_k. destruct (Z.ltb_spec a b); lia.
  - unfold sub_k, u8. destruct (Z.ltb_spec b a); rewrite Z.mod_small; lia.
Qed.

Theorem C133_two_inputs F f d m in1 x1 y1 in2 x2 y2 out xo yo w h :
  In (F, f) cl_two_input_functions -> cl_ok d ->
  area m in1 x1 y1 w h -> area m in2 x2 y2 w h -> area m out xo yo w h ->
  icc in1 = icc out -> icc in2 = icc out -> bytes m in1 -> bytes m in2 ->
  no_hazard out xo yo in1 x1 y1 w h -> no_hazard out xo yo in2 x2 y2 w h ->
  device_run (cl_roomy d) m (fun s => F d s m in1 x1 y1 in2 x2 y2 out xo yo w h)
    (fun M => writes (@Ok mem mem M) m out xo yo w h
       (fun i j c => f (pixel m in1 (x1 + i) (y1 + j) c) (pixel m in2 (x2 + i) (y2 + j) c))).
Proof.
  intros HF Hd A1 A2 Ao C1 C2 B1 B2 N1 N2. destruct (cl_two_input_model F f HF) as (g & -> & Hg).
  eapply device_run_weak; [|apply (cl2_run g d m in1 x1 y1 in2 x2 y2 out xo yo w h); assumption].
  intros M HM. eapply writes_ext; [exact HM|]. intros i j c Hi. cbv beta.
  destruct A1, A2. apply Hg; apply (bytes_at m _ _ _ w h); auto; congruence.
Qed.
Theorem C133_invert d m inp xi yi out xo yo w h : cl_ok d ->
  area m inp xi yi w h -> area m out xo yo w h -> icc inp = icc out -> bytes m inp -> no_hazard out xo yo inp xi yi w h ->
  device_run (cl_roomy d) m (fun s => cl_Invert d s m inp xi yi out xo yo w h)
    (fun M => writes (@Ok mem mem M) m out xo yo w h (fun i j c => 255 - pixel m inp (xi + i) (yi + j) c)).
Proof.
  intros Hd A1 Ao C B N. eapply device_run_weak; [|apply (cl_Invert_run d m inp xi yi out xo yo w h); auto].
  intros M HM. eapply writes_ext; [exact HM|]. intros i j c Hi. cbv beta. destruct A1 as [W1 R1].
  pose proof (bytes_at m inp xi yi w h i j c B R1) as P1. rewrite C in P1. specialize (P1 Hi).
  unfold invert_k, u8, Z.lnot. set (v := pixel m inp (xi + i) (yi + j) c) in *. clearbody v.
  symmetry. apply Z.mod_unique with (-1); [|unfold Z.pred]; lia.
Qed.
Theorem C133_is_equal d m in1 x1 y1 in2 x2 y2 w h b : cl_ok d ->
  area m in1 x1 y1 w h -> area m in2 x2 y2 w h -> icc in1 = icc in2 -> len m b = 0 ->
  device_run (cl_roomy d) m (fun s => cl_IsEqual d (Some b) s m in1 x1 y1 in2 x2 y2 w h)
    (fun r => same_mem m (fst r) /\
       (snd r = true <-> forall i j c, inside w h (icc in1) i j c ->
          pixel m in1 (x1 + i) (y1 + j) c = pixel m in2 (x2 + i) (y2 + j) c)).
Proof. apply cl_IsEqual_run. Qed.
Theorem C133_projection d m im x y w h b hor : cl_ok d ->
  area m im x y w h -> len m b = 0 ->
  device_run (cl_roomy d) m (fun s => cl_ProjectionProfile d (Some b) s m im x y w h hor)
    (fun r => same_mem m (fst r) /\
       if hor : bool
       then length (snd r) = Z.to_nat (w * icc im) /\
            forall i c, 0 <= i < w -> 0 <= c < icc im ->
              entry (snd r) (i * icc im + c) = zsum h (fun j => pixel m im (x + i) (y + j) c) mod W32
       else length (snd r) = Z.to_nat h /\
            forall j, 0 <= j < h -> entry (snd r) j =
              zsum w (fun i => zsum (icc im) (fun c => pixel m im (x + i) (y + j) c)) mod W32).
Proof. apply cl_Projection_run. Qed.
(** Fill of a whole image: every byte, the padding included. *)
Theorem C133_fill_image d m im v : cl_ok d -> wf m im ->
  device_run (cl_roomy d) m (fun s => cl_FillImage d s m im v)
    (fun M => (forall x y c, 0 <= x < iw im -> 0 <= y < ih im -> 0 <= c < icc im -> pixel M im x y c = v) /\
       (forall q, (forall o, 0 <= o < ih im * irs im -> q <> padd (ibase im) o) -> get M q = get m q) /\
       (forall b, len M b = len m b)).
Proof.
  intros Hd W. eapply device_run_weak; [|apply cl_FillImage_run; assumption].
  intros M (H1 & H2 & H3). split; [|split; assumption].
  intros x y c Hx Hy Hc. pose proof (wf_rs _ _ W). pose proof (wf_cc_pos _ _ W).
  assert (Hxc : 0 <= x * icc im) by (apply Z.mul_nonneg_nonneg; lia).
  assert (Hx1 : x * icc im + c < irs im) by nia.
  assert (Hyc : 0 <= y * irs im) by (apply Z.mul_nonneg_nonneg; lia).
  assert (Hy1 : y * irs im + irs im <= ih im * irs im) by nia.
  specialize (H1 (y * irs im + x * icc im + c)). rewrite <- H1 by lia. unfold pixel, px, padd. f_equal. f_equal. lia.
Qed.
Example C133_case_separate : device_run (cl_roomy cl256) emem
    (fun s => cl_Subtract cl256 s emem (img 1 5 4 3 16) 1 1 (img 2 4 3 3 12) 0 1 (img 3 6 5 3 20) 2 0 3 2)
    (fun M => writes (@Ok mem mem M) emem (img 3 6 5 3 20) 2 0 3 2
       (fun i j c => Z.max (pixel emem (img 1 5 4 3 16) (1 + i) (1 + j) c - pixel emem (img 2 4 3 3 12) (0 + i) (1 + j) c) 0)).
Proof.
  refine (C133_two_inputs cl_Subtract (fun a b => Z.max (a - b) 0) cl256 emem _ _ _ _ _ _ (img 3 6 5 3 20) _ _ 3 2 _ cl256_ok _ _ _ _ _ _ _ _ _);
    try solve_area; try reflexivity; try apply emem_bytes; try (apply hazard_of_disjoint; solve_disjoint).
  do 6 right. left. reflexivity.
Qed.
Example C133_case_in_place : device_run (cl_roomy cl256) emem
    (fun s => cl_Maximum cl256 s emem (img 1 5 4 1 8) 1 1 (img 2 4 3 1 4) 0 1 (img 1 5 4 1 8) 1 1 3 2)
    (fun M => writes (@Ok mem mem M) emem (img 1 5 4 1 8) 1 1 3 2
       (fun i j c => Z.max (pixel emem (img 1 5 4 1 8) (1 + i) (1 + j) c) (pixel emem (img 2 4 3 1 4) (0 + i) (1 + j) c))).
Proof.
  refine (C133_two_inputs cl_Maximum Z.max cl256 emem _ _ _ _ _ _ (img 1 5 4 1 8) _ _ 3 2 _ cl256_ok _ _ _ _ _ _ _ _ _);
    try solve_area; try reflexivity; try apply emem_bytes.
  - do 4 right. left. reflexivity.
  - apply (no_hazard_same emem); [solve_wf|solve_roi].
  - apply hazard_of_disjoint; solve_disjoint.
Qed.
Example C133_case_arrays : cl_ok cl256 /\ area emem8 (img 1 5 4 3 16) 1 1 3 2 /\ area emem8 (img 2 4 3 3 12) 0 1 3 2 /\ len emem8 9 = 0.
Proof. split; [apply cl256_ok|]. split; [solve_area|]. split; [solve_area|reflexivity]. Qed.
Print Assumptions C133_two_inputs.
Print Assumptions C133_invert.
Print Assumptions C133_is_equal.
Print Assumptions C133_projection.
Print Assumptions C133_fill_image.

(** *** Runs that leave the memory *)

(** The thread reads or writes outside every buffer sooner or later, whatever it reads. *)
Inductive doomed (m : mem) : prog -> Prop :=
| doomed_load p k : ~ (0 <= snd p < len m (fst p)) -> doomed m (PLoad p k)
| doomed_store p v k : ~ (0 <= snd p < len m (fst p)) -> doomed m (PStore p v k)
| doomed_after p k : (forall v, doomed m (k v)) -> doomed m (PLoad p k).

(** No finished run: undefined behaviour, and it is reached. *)
Definition never_returns {A} (call : list nat -> res mem A) : Prop :=
  (forall s, call s = UB \/ call s = Timeout) /\ exists s, call s = UB.

Lemma inb_out m p : ~ (0 <= snd p < len m (fst p)) -> inb m p = false.
Proof.
  intros H. unfold inb. destruct (Z.leb_spec 0 (snd p)), (Z.ltb_spec (snd p) (len m (fst p))); cbn; try reflexivity; lia.
Qed.
Lemma doomed_len m m' t : same_len m m' -> doomed m t -> doomed m' t.
Proof.
  intros L H. induction H as [p k H|p v k H|p k H IH].
  - apply doomed_load. rewrite L. exact H.
  - apply doomed_store. rewrite L. exact H.
  - apply doomed_after. exact IH.
Qed.
Lemma doomed_step m t m' t' : doomed m t -> pstep m t = Ok (m', t') -> doomed m' t'.
Proof.
  intros H E. destruct H as [p k H|p v k H|p k H]; cbn in E; unfold load, store in E.
  - rewrite (inb_out _ _ H) in E. discriminate.
  - rewrite (inb_out _ _ H) in E. discriminate.
  - destruct (inb m p); [|discriminate]. injection E as <- <-. apply H.
Qed.
Lemma pstep_len m t m' t' : pstep m t = Ok (m', t') -> same_len m m'.
Proof.
  destruct t as [|p k|p v k|p f k]; cbn; unfold load, store; intros E.
  - injection E as <- _. apply same_len_refl.
  - destruct (inb m p); [|discriminate]. injection E as <- _. apply same_len_refl.
  - destruct (inb m p); [|discriminate]. injection E as <- _. intros b. apply len_upd.
  - destruct (inb m p) eqn:Ei; [|discriminate]. cbn in E. injection E as <- _. intros b. apply len_upd.
Qed.
Lemma pstep_nth_inv ts : forall m j m1 ts1, pstep_nth m ts j = Ok (m1, ts1) ->
  same_len m m1 /\ (forall i, i <> j -> nth_error ts1 i = nth_error ts i) /\
  (forall t, nth_error ts j = Some t -> exists t', pstep m t = Ok (m1, t') /\ nth_error ts1 j = Some t').
Proof.
  induction ts as [|u ts IH]; intros m [|j] m1 ts1 E; cbn in E.
  - injection E as <- <-. split; [apply same_len_refl|]. split; [reflexivity|]. intros t H. discriminate.
  - injection E as <- <-. split; [apply same_len_refl|]. split; [reflexivity|]. intros t H. discriminate.
  - destruct (pstep m u) as [[m' t']| | |] eqn:Es; try discriminate. cbn in E. injection E as <- <-.
    split; [eapply pstep_len, Es|]. split.
    + intros [|i] Hi; [contradiction|]. reflexivity.
    + intros t H. cbn in H. injection H as <-. exists t'. split; [exact Es|reflexivity].
  - destruct (pstep_nth m ts j) as [[m' ts']| | |] eqn:Es; try discriminate. cbn in E. injection E as <- <-.
    destruct (IH _ _ _ _ Es) as (L & O & T). split; [exact L|]. split.
    + intros [|i] Hi; [reflexivity|]. cbn. apply O. congruence.
    + intros t H. cbn in H. destruct (T t H) as (t' & E1 & E2). exists t'. split; [exact E1|exact E2].
Qed.
Lemma prun_doomed s : forall m ts i t m' ts', nth_error ts i = Some t -> doomed m t -> prun s m ts = Ok (m', ts') ->
  exists t', nth_error ts' i = Some t' /\ doomed m' t'.
Proof.
  induction s as [|j s IH]; intros m ts i t m' ts' Hn Hd E; cbn in E.
  - injection E as <- <-. eauto.
  - destruct (pstep_nth m ts j) as [[m1 ts1]| | |] eqn:Es; try discriminate. cbn in E.
    destruct (pstep_nth_inv _ _ _ _ _ Es) as (L & O & T). destruct (Nat.eq_dec i j) as [<-|Hij].
    + destruct (T t Hn) as (t1 & E1 & E2). eapply IH; [exact E2| |exact E]. eapply doomed_step; eassumption.
    + eapply IH; [rewrite O by exact Hij; exact Hn| |exact E]. eapply doomed_len; eassumption.
Qed.
Lemma pstep_nth_ub ts : forall m j t, nth_error ts j = Some t -> pstep m t = UB -> pstep_nth m ts j = UB.
Proof.
  induction ts as [|u ts IH]; intros m [|j] t H E; cbn in *; try discriminate.
  - injection H as ->. rewrite E. reflexivity.
  - rewrite (IH _ _ _ H E). reflexivity.
Qed.
Lemma doomed_reached t : forall m ts i, doomed m t -> nth_error ts i = Some t -> exists n, prun (repeat i n) m ts = UB.
Proof.
  induction t as [|p k IH|p v k IH|p f k IH]; intros m ts i H Hn; inversion H; subst.
  - exists 1%nat. cbn. rewrite (pstep_nth_ub _ _ _ _ Hn); [reflexivity|]. cbn. unfold load. rewrite inb_out by assumption. reflexivity.
  - destruct (inb m p) eqn:Ei.
    + assert (Es : pstep m (PLoad p k) = Ok (m, k (get m p))) by (cbn; unfold load; rewrite Ei; reflexivity).
      pose proof (pstep_nth_some _ _ _ _ _ _ Hn Es) as E.
      destruct (pstep_nth_inv _ _ _ _ _ E) as (_ & _ & T). destruct (T _ Hn) as (t' & E1 & E2).
      rewrite Es in E1. injection E1 as <-.
      destruct (IH (get m p) m _ i (H1 _) E2) as (n & Hr). exists (S n). cbn [repeat prun]. rewrite E. cbn [bind]. exact Hr.
    + exists 1%nat. cbn. rewrite (pstep_nth_ub _ _ _ _ Hn); [reflexivity|]. cbn. unfold load. rewrite Ei. reflexivity.
  - exists 1%nat. cbn. rewrite (pstep_nth_ub _ _ _ _ Hn); [reflexivity|]. cbn. unfold store. rewrite inb_out by assumption. reflexivity.
Qed.
Lemma run_grid_doomed m ts t : In t ts -> doomed m t -> never_returns (fun s => run_grid s m ts).
Proof.
  intros Hin Hd. apply In_nth_error in Hin as (i & Hi). split.
  - intros s. unfold run_grid. destruct (prun s m ts) as [[m' ts']| | |] eqn:E; auto.
    destruct (prun_doomed _ _ _ _ _ _ _ Hi Hd E) as (t' & Ht' & Hd').
    destruct (forallb pdone ts') eqn:Ef; [|auto]. exfalso. rewrite forallb_forall in Ef.
    specialize (Ef t' (nth_error_In _ _ Ht')). destruct Hd'; discriminate.
  - destruct (doomed_reached t m ts i Hd Hi) as (n & Hr). exists (repeat i n). unfold run_grid. rewrite Hr. reflexivity.
Qed.
Lemma cl_launch2D_doomed d m w h k x y : cl_ok d -> cl_roomy d -> 0 < w < W32 -> 0 < h < W32 ->
  0 <= x < w -> 0 <= y < h -> doomed m (k x y) -> never_returns (fun s => cl_launch2D d s m w h k).
Proof.
  intros Hd Hr Hw Hh Hx Hy H. assert (P : W32 < 2 ^ 62) by (vm_compute; reflexivity).
  destruct (params2_ok d w h Hd) as (r & E & Gx & Gy & _ & _ & Ha); [lia|lia|]. specialize (Ha Hr).
  assert (R : never_returns (fun s => run_grid s m (map (fun c => k (fst c) (snd c)) (cl_items r)))).
  { apply (run_grid_doomed m _ (k x y)); [|exact H]. apply (in_map (fun c => k (fst c) (snd c)) (cl_items r) (x, y)).
    apply in_prod; apply zrange_In; lia. }
  destruct R as [R1 [s R2]]. split.
  - intros s'. unfold cl_launch2D. rewrite E. cbn [bind]. rewrite Ha. apply R1.
  - exists s. unfold cl_launch2D. rewrite E. cbn [bind]. rewrite Ha. exact R2.
Qed.

(** ** C134: regions of interest *)

(** What one pixel of a run of [writes] holds. *)
Lemma writes_at M m out x y w h f i j c : writes (@Ok mem mem M) m out x y w h f -> inside w h (icc out) i j c ->
  pixel M out (x + i) (y + j) c = f i j c.
Proof. intros (m' & E & V & _) Hi. injection E as <-. apply V, Hi. Qed.
Lemma writes_kept M m out x y w h f p : writes (@Ok mem mem M) m out x y w h f ->
  (forall i j c, inside w h (icc out) i j c -> p <> px out (x + i) (y + j) c) -> get M p = get m p.
Proof. intros (m' & E & _ & _ & F) Hp. injection E as <-. apply F, Hp. Qed.
Ltac solve_inside := unfold inside; cbn; lia.
Lemma emem8_bytes im : bytes emem8 im.
Proof.
  intros x y c _ _ _. unfold pixel, get, emem8. destruct (fst (px im x y c) <? 8).
  - unfold emem. cbn [bget]. apply Z.mod_pos_bound. lia.
  - cbn. lia.
Qed.

Definition C134_threshold_claim : Prop := forall t d m inp xi yi out xo yo w h, cl_ok d ->
  area m inp xi yi w h -> area m out xo yo w h -> icc inp = 1 -> icc out = 1 -> disjoint out xo yo w h inp xi yi w h ->
  device_run (cl_roomy d) m (fun s => cl_Threshold t d s m inp xi yi out xo yo w h)
    (fun M => writes (@Ok mem mem M) m out xo yo w h (fun i j c => if t <=? pixel m inp (xi + i) (yi + j) c then 255 else 0)).
Definition C134_threshold_band_claim : Prop := forall lo hi d m inp xi yi out xo yo w h, cl_ok d ->
  area m inp xi yi w h -> area m out xo yo w h -> icc inp = 1 -> icc out = 1 -> disjoint out xo yo w h inp xi yi w h ->
  device_run (cl_roomy d) m (fun s => cl_Threshold2 lo hi d s m inp xi yi out xo yo w h)
    (fun M => writes (@Ok mem mem M) m out xo yo w h (fun i j c =>
       if (lo <=? pixel m inp (xi + i) (yi + j) c) && (pixel m inp (xi + i) (yi + j) c <=? hi) then 255 else 0)).
Definition C134_fill_claim : Prop := forall d m im x y w h v, cl_ok d -> area m im x y w h -> icc im = 1 ->
  device_run (cl_roomy d) m (fun s => cl_Fill d s m im x y w h v)
    (fun M => writes (@Ok mem mem M) m im x y w h (fun _ _ _ => v)).
Definition C134_histogram_claim : Prop := forall d m im x y w h b, cl_ok d ->
  area m im x y w h -> icc im = 1 -> bytes m im -> len m b = 0 ->
  device_run (cl_roomy d) m (fun s => cl_Histogram d (Some b) s m im x y w h)
    (fun r => forall v, 0 <= v < 256 -> entry (snd r) v = count_roi w h (fun i j => pixel m im (x + i) (y + j) 0 =? v)).
Definition C134_lookup_claim : Prop := forall table d m inp xi yi out xo yo w h b, cl_ok d ->
  area m inp xi yi w h -> area m out xo yo w h -> icc inp = icc out -> bytes m inp -> length table = 256%nat ->
  disjoint out xo yo w h inp xi yi w h -> len m b = 0 ->
  device_run (cl_roomy d) m (fun s => cl_LookupTable table d (Some b) s m inp xi yi out xo yo w h)
    (fun r => writes (@Ok mem mem (fst r)) m out xo yo w h
       (fun i j c => nth (Z.to_nat (pixel m inp (xi + i) (yi + j) c)) table 0)).
Definition C134_to_gray_claim : Prop := forall d fresh m inp xi yi out xo yo w h, cl_ok d ->
  area m inp xi yi w h -> area m out xo yo w h -> icc inp <> 1 -> icc out = 1 -> bytes m inp ->
  disjoint out xo yo w h inp xi yi w h ->
  device_run (cl_roomy d) m (fun s => cl_ConvertToGrayScale d fresh s m inp xi yi out xo yo w h)
    (fun r => snd r = out /\ writes (@Ok mem mem (fst r)) m out xo yo w h
       (fun i j _ => zsum (icc inp) (fun c => pixel m inp (xi + i) (yi + j) c) / icc inp)).
Definition C134_to_rgb_claim : Prop := forall d fresh m inp xi yi out xo yo w h, cl_ok d ->
  area m inp xi yi w h -> area m out xo yo w h -> icc inp = 1 -> icc out = 3 ->
  disjoint out xo yo w h inp xi yi w h ->
  device_run (cl_roomy d) m (fun s => cl_ConvertToRgb d fresh s m inp xi yi out xo yo w h)
    (fun r => snd r = out /\ writes (@Ok mem mem (fst r)) m out xo yo w h (fun i j _ => pixel m inp (xi + i) (yi + j) 0)).

(** What the seven functions do: the region that starts at (startY, startX). *)
Theorem C134_threshold_swapped t d m inp xi yi out xo yo w h : cl_ok d -> roi_in inp xi yi w h ->
  area m inp yi xi w h -> area m out xo yo w h -> icc inp = 1 -> icc out = 1 -> no_hazard out xo yo inp yi xi w h ->
  device_run (cl_roomy d) m (fun s => cl_Threshold t d s m inp xi yi out xo yo w h)
    (fun M => writes (@Ok mem mem M) m out xo yo w h (fun i j c => if t <=? pixel m inp (yi + i) (xi + j) c then 255 else 0)).
Proof.
  intros Hd R A1 Ao C Co N.
  eapply device_run_weak; [|apply (cl_thr_run params_thr [AU8] (thr_k t) d m inp xi yi out xo yo w h); auto].
  intros M HM. eapply writes_ext; [exact HM|]. intros i j c Hi. cbv beta. unfold thr_k. rewrite Z.ltb_antisym. destruct (_ <=? _); reflexivity.
Qed.
Theorem C134_threshold_band_swapped lo hi d m inp xi yi out xo yo w h : cl_ok d -> roi_in inp xi yi w h ->
  area m inp yi xi w h -> area m out xo yo w h -> icc inp = 1 -> icc out = 1 -> no_hazard out xo yo inp yi xi w h ->
  device_run (cl_roomy d) m (fun s => cl_Threshold2 lo hi d s m inp xi yi out xo yo w h)
    (fun M => writes (@Ok mem mem M) m out xo yo w h (fun i j c =>
       if (lo <=? pixel m inp (yi + i) (xi + j) c) && (pixel m inp (yi + i) (xi + j) c <=? hi) then 255 else 0)).
Proof.
  intros Hd R A1 Ao C Co N.
  eapply device_run_weak; [|apply (cl_thr_run params_thr2 [AU8; AU8] (thr2_k lo hi) d m inp xi yi out xo yo w h); auto].
  intros M HM. eapply writes_ext; [exact HM|]. intros i j c Hi. cbv beta. unfold thr2_k. set (v := pixel m inp (yi + i) (xi + j) c).
  destruct (Z.ltb_spec v lo), (Z.ltb_spec hi v), (Z.leb_spec lo v), (Z.leb_spec v hi); auto; lia.
Qed.
Theorem C134_fill_swapped d m im x y w h v : cl_ok d -> roi_in im x y w h -> area m im y x w h -> icc im = 1 ->
  device_run (cl_roomy d) m (fun s => cl_Fill d s m im x y w h v)
    (fun M => writes (@Ok mem mem M) m im y x w h (fun _ _ _ => v)).
Proof. apply cl_Fill_run. Qed.
Theorem C134_histogram_swapped d m im x y w h b : cl_ok d -> roi_in im x y w h ->
  area m im y x w h -> icc im = 1 -> bytes m im -> len m b = 0 ->
  device_run (cl_roomy d) m (fun s => cl_Histogram d (Some b) s m im x y w h)
    (fun r => same_mem m (fst r) /\ length (snd r) = 256%nat /\
       forall v, 0 <= v < 256 -> entry (snd r) v = count_roi w h (fun i j => pixel m im (y + i) (x + j) 0 =? v)).
Proof. apply cl_Histogram_run. Qed.
Theorem C134_lookup_swapped table d m inp xi yi out xo yo w h b : cl_ok d -> roi_in inp xi yi w h ->
  area m inp yi xi w h -> area m out xo yo w h -> icc inp = icc out -> bytes m inp -> length table = 256%nat ->
  no_hazard out xo yo inp yi xi w h -> len m b = 0 ->
  device_run (cl_roomy d) m (fun s => cl_LookupTable table d (Some b) s m inp xi yi out xo yo w h)
    (fun r => writes (@Ok mem mem (fst r)) m out xo yo w h
       (fun i j c => nth (Z.to_nat (pixel m inp (yi + i) (xi + j) c)) table 0)).
Proof. apply cl_Lookup_run. Qed.
Theorem C134_to_gray_swapped d fresh m inp xi yi out xo yo w h : cl_ok d -> roi_in inp xi yi w h ->
  area m inp yi xi w h -> area m out xo yo w h -> icc inp <> 1 -> icc out = 1 -> bytes m inp ->
  disjoint out xo yo w h inp yi xi w h ->
  device_run (cl_roomy d) m (fun s => cl_ConvertToGrayScale d fresh s m inp xi yi out xo yo w h)
    (fun r => snd r = out /\ writes (@Ok mem mem (fst r)) m out xo yo w h
       (fun i j _ => zsum (icc inp) (fun c => pixel m inp (yi + i) (xi + j) c) / icc inp)).
Proof. apply cl_Gray_run. Qed.
Theorem C134_to_rgb_swapped d fresh m inp xi yi out xo yo w h : cl_ok d -> roi_in inp xi yi w h ->
  area m inp yi xi w h -> area m out xo yo w h -> icc inp = 1 -> icc out = 3 ->
  disjoint out xo yo w h inp yi xi w h ->
  device_run (cl_roomy d) m (fun s => cl_ConvertToRgb d fresh s m inp xi yi out xo yo w h)
    (fun r => snd r = out /\ writes (@Ok mem mem (fst r)) m out xo yo w h (fun i j _ => pixel m inp (yi + i) (xi + j) 0)).
Proof. apply cl_Rgb_run. Qed.

(** The claims fail for the pixel (1, 0): the pixel (0, 1) is taken instead. *)
Theorem C134_threshold_refuted : ~ C134_threshold_claim.
Proof.
  intros H. specialize (H 50 cl256 emem (img 1 5 4 1 8) 1 0 (img 2 5 4 1 8) 0 0 1 1 cl256_ok).
  pose proof (C134_threshold_swapped 50 cl256 emem (img 1 5 4 1 8) 1 0 (img 2 5 4 1 8) 0 0 1 1 cl256_ok) as G.
  destruct (device_run_both _ _ _ _ _ (H ltac:(solve_area) ltac:(solve_area) eq_refl eq_refl ltac:(solve_disjoint))
    (G ltac:(solve_roi) ltac:(solve_area) ltac:(solve_area) eq_refl eq_refl ltac:(apply hazard_of_disjoint; solve_disjoint)) cl256_roomy) as (M & Q1 & Q2).
  pose proof (writes_at _ _ _ _ _ _ _ _ 0 0 0 Q1 ltac:(solve_inside)) as E1.
  pose proof (writes_at _ _ _ _ _ _ _ _ 0 0 0 Q2 ltac:(solve_inside)) as E2. rewrite E1 in E2. vm_compute in E2. discriminate.
Qed.
Theorem C134_threshold_band_refuted : ~ C134_threshold_band_claim.
Proof.
  intros H. specialize (H 50 200 cl256 emem (img 1 5 4 1 8) 1 0 (img 2 5 4 1 8) 0 0 1 1 cl256_ok).
  pose proof (C134_threshold_band_swapped 50 200 cl256 emem (img 1 5 4 1 8) 1 0 (img 2 5 4 1 8) 0 0 1 1 cl256_ok) as G.
  destruct (device_run_both _ _ _ _ _ (H ltac:(solve_area) ltac:(solve_area) eq_refl eq_refl ltac:(solve_disjoint))
    (G ltac:(solve_roi) ltac:(solve_area) ltac:(solve_area) eq_refl eq_refl ltac:(apply hazard_of_disjoint; solve_disjoint)) cl256_roomy) as (M & Q1 & Q2).
  pose proof (writes_at _ _ _ _ _ _ _ _ 0 0 0 Q1 ltac:(solve_inside)) as E1.
  pose proof (writes_at _ _ _ _ _ _ _ _ 0 0 0 Q2 ltac:(solve_inside)) as E2. rewrite E1 in E2. vm_compute in E2. discriminate.
Qed.
Theorem C134_fill_refuted : ~ C134_fill_claim.
Proof.
  intros H. specialize (H cl256 emem (img 1 5 4 1 8) 1 0 1 1 7 cl256_ok).
  pose proof (C134_fill_swapped cl256 emem (img 1 5 4 1 8) 1 0 1 1 7 cl256_ok) as G.
  destruct (device_run_both _ _ _ _ _ (H ltac:(solve_area) eq_refl) (G ltac:(solve_roi) ltac:(solve_area) eq_refl) cl256_roomy) as (M & Q1 & Q2).
  pose proof (writes_at _ _ _ _ _ _ _ _ 0 0 0 Q1 ltac:(solve_inside)) as E1.
  pose proof (writes_kept _ _ _ _ _ _ _ _ (px (img 1 5 4 1 8) 1 0 0) Q2) as E2.
  unfold pixel in E1. change (1 + 0) with 1 in E1. change (0 + 0) with 0 in E1. rewrite E2 in E1.
  - vm_compute in E1. discriminate.
  - intros i j c (Hi & Hj & Hc) E. cbn in Hc. assert (i = 0) by lia. assert (j = 0) by lia. assert (c = 0) by lia. subst. vm_compute in E. discriminate.
Qed.
Theorem C134_histogram_refuted : ~ C134_histogram_claim.
Proof.
  intros H. specialize (H cl256 emem8 (img 1 5 4 1 8) 1 0 1 1 9 cl256_ok).
  pose proof (C134_histogram_swapped cl256 emem8 (img 1 5 4 1 8) 1 0 1 1 9 cl256_ok) as G.
  destruct (device_run_both _ _ _ _ _ (H ltac:(solve_area) eq_refl (emem8_bytes _) eq_refl)
    (G ltac:(solve_roi) ltac:(solve_area) eq_refl (emem8_bytes _) eq_refl) cl256_roomy) as (r & Q1 & _ & _ & Q2).
  specialize (Q1 48 ltac:(lia)). specialize (Q2 48 ltac:(lia)). rewrite Q1 in Q2. vm_compute in Q2. discriminate.
Qed.
Theorem C134_lookup_refuted : ~ C134_lookup_claim.
Proof.
  intros H. specialize (H (zrange 256) cl256 emem8 (img 1 5 4 1 8) 1 0 (img 2 5 4 1 8) 0 0 1 1 9 cl256_ok).
  pose proof (C134_lookup_swapped (zrange 256) cl256 emem8 (img 1 5 4 1 8) 1 0 (img 2 5 4 1 8) 0 0 1 1 9 cl256_ok) as G.
  destruct (device_run_both _ _ _ _ _ (H ltac:(solve_area) ltac:(solve_area) eq_refl (emem8_bytes _) eq_refl ltac:(solve_disjoint) eq_refl)
    (G ltac:(solve_roi) ltac:(solve_area) ltac:(solve_area) eq_refl (emem8_bytes _) eq_refl ltac:(apply hazard_of_disjoint; solve_disjoint) eq_refl) cl256_roomy) as (r & Q1 & Q2).
  pose proof (writes_at _ _ _ _ _ _ _ _ 0 0 0 Q1 ltac:(solve_inside)) as E1.
  pose proof (writes_at _ _ _ _ _ _ _ _ 0 0 0 Q2 ltac:(solve_inside)) as E2. rewrite E1 in E2. vm_compute in E2. discriminate.
Qed.
Theorem C134_to_gray_refuted : ~ C134_to_gray_claim.
Proof.
  intros H. specialize (H cl256 None emem (img 1 5 4 3 16) 1 0 (img 2 5 4 1 8) 0 0 1 1 cl256_ok).
  pose proof (C134_to_gray_swapped cl256 None emem (img 1 5 4 3 16) 1 0 (img 2 5 4 1 8) 0 0 1 1 cl256_ok) as G.
  destruct (device_run_both _ _ _ _ _ (H ltac:(solve_area) ltac:(solve_area) ltac:(discriminate) eq_refl (emem_bytes _) ltac:(solve_disjoint))
    (G ltac:(solve_roi) ltac:(solve_area) ltac:(solve_area) ltac:(discriminate) eq_refl (emem_bytes _) ltac:(solve_disjoint)) cl256_roomy)
    as (r & [_ Q1] & [_ Q2]).
  pose proof (writes_at _ _ _ _ _ _ _ _ 0 0 0 Q1 ltac:(solve_inside)) as E1.
  pose proof (writes_at _ _ _ _ _ _ _ _ 0 0 0 Q2 ltac:(solve_inside)) as E2. rewrite E1 in E2. vm_compute in E2. discriminate.
Qed.
Theorem C134_to_rgb_refuted : ~ C134_to_rgb_claim.
Proof.
  intros H. specialize (H cl256 None emem (img 1 5 4 1 8) 1 0 (img 2 5 4 3 16) 0 0 1 1 cl256_ok).
  pose proof (C134_to_rgb_swapped cl256 None emem (img 1 5 4 1 8) 1 0 (img 2 5 4 3 16) 0 0 1 1 cl256_ok) as G.
  destruct (device_run_both _ _ _ _ _ (H ltac:(solve_area) ltac:(solve_area) eq_refl eq_refl ltac:(solve_disjoint))
    (G ltac:(solve_roi) ltac:(solve_area) ltac:(solve_area) eq_refl eq_refl ltac:(solve_disjoint)) cl256_roomy) as (r & [_ Q1] & [_ Q2]).
  pose proof (writes_at _ _ _ _ _ _ _ _ 0 0 0 Q1 ltac:(solve_inside)) as E1.
  pose proof (writes_at _ _ _ _ _ _ _ _ 0 0 0 Q2 ltac:(solve_inside)) as E2. rewrite E1 in E2. vm_compute in E2. discriminate.
Qed.
Print Assumptions C134_threshold_swapped.
Print Assumptions C134_threshold_band_swapped.
Print Assumptions C134_fill_swapped.
Print Assumptions C134_histogram_swapped.
Print Assumptions C134_lookup_swapped.
Print Assumptions C134_to_gray_swapped.
Print Assumptions C134_to_rgb_swapped.
Print Assumptions C134_threshold_refuted.
Print Assumptions C134_threshold_band_refuted.
Print Assumptions C134_fill_refuted.
Print Assumptions C134_histogram_refuted.
Print Assumptions C134_lookup_refuted.
Print Assumptions C134_to_gray_refuted.
Print Assumptions C134_to_rgb_refuted.

(** The claims hold for regions on the diagonal, whole images among them. *)
Theorem C134_threshold_partial t d m inp a out xo yo w h : cl_ok d ->
  area m inp a a w h -> area m out xo yo w h -> icc inp = 1 -> icc out = 1 -> no_hazard out xo yo inp a a w h ->
  device_run (cl_roomy d) m (fun s => cl_Threshold t d s m inp a a out xo yo w h)
    (fun M => writes (@Ok mem mem M) m out xo yo w h (fun i j c => if t <=? pixel m inp (a + i) (a + j) c then 255 else 0)).
Proof. intros Hd A. pose proof A as [_ R]. revert A. apply C134_threshold_swapped; assumption. Qed.
Theorem C134_threshold_band_partial lo hi d m inp a out xo yo w h : cl_ok d ->
  area m inp a a w h -> area m out xo yo w h -> icc inp = 1 -> icc out = 1 -> no_hazard out xo yo inp a a w h ->
  device_run (cl_roomy d) m (fun s => cl_Threshold2 lo hi d s m inp a a out xo yo w h)
    (fun M => writes (@Ok mem mem M) m out xo yo w h (fun i j c =>
       if (lo <=? pixel m inp (a + i) (a + j) c) && (pixel m inp (a + i) (a + j) c <=? hi) then 255 else 0)).
Proof. intros Hd A. pose proof A as [_ R]. revert A. apply C134_threshold_band_swapped; assumption. Qed.
Theorem C134_fill_partial d m im a w h v : cl_ok d -> area m im a a w h -> icc im = 1 ->
  device_run (cl_roomy d) m (fun s => cl_Fill d s m im a a w h v)
    (fun M => writes (@Ok mem mem M) m im a a w h (fun _ _ _ => v)).
Proof. intros Hd A. pose proof A as [_ R]. revert A. apply C134_fill_swapped; assumption. Qed.
Theorem C134_histogram_partial d m im a w h b : cl_ok d ->
  area m im a a w h -> icc im = 1 -> bytes m im -> len m b = 0 ->
  device_run (cl_roomy d) m (fun s => cl_Histogram d (Some b) s m im a a w h)
    (fun r => same_mem m (fst r) /\ length (snd r) = 256%nat /\
       forall v, 0 <= v < 256 -> entry (snd r) v = count_roi w h (fun i j => pixel m im (a + i) (a + j) 0 =? v)).
Proof. intros Hd A. pose proof A as [_ R]. revert A. apply C134_histogram_swapped; assumption. Qed.
Theorem C134_lookup_partial table d m inp a out xo yo w h b : cl_ok d ->
  area m inp a a w h -> area m out xo yo w h -> icc inp = icc out -> bytes m inp -> length table = 256%nat ->
  no_hazard out xo yo inp a a w h -> len m b = 0 ->
  device_run (cl_roomy d) m (fun s => cl_LookupTable table d (Some b) s m inp a a out xo yo w h)
    (fun r => writes (@Ok mem mem (fst r)) m out xo yo w h
       (fun i j c => nth (Z.to_nat (pixel m inp (a + i) (a + j) c)) table 0)).
Proof. intros Hd A. pose proof A as [_ R]. revert A. apply C134_lookup_swapped; assumption. Qed.
Theorem C134_to_gray_partial d fresh m inp a out xo yo w h : cl_ok d ->
  area m inp a a w h -> area m out xo yo w h -> icc inp <> 1 -> icc out = 1 -> bytes m inp ->
  disjoint out xo yo w h inp a a w h ->
  device_run (cl_roomy d) m (fun s => cl_ConvertToGrayScale d fresh s m inp a a out xo yo w h)
    (fun r => snd r = out /\ writes (@Ok mem mem (fst r)) m out xo yo w h
       (fun i j _ => zsum (icc inp) (fun c => pixel m inp (a + i) (a + j) c) / icc inp)).
Proof. intros Hd A. pose proof A as [_ R]. revert A. apply C134_to_gray_swapped; assumption. Qed.
Theorem C134_to_rgb_partial d fresh m inp a out xo yo w h : cl_ok d ->
  area m inp a a w h -> area m out xo yo w h -> icc inp = 1 -> icc out = 3 ->
  disjoint out xo yo w h inp a a w h ->
  device_run (cl_roomy d) m (fun s => cl_ConvertToRgb d fresh s m inp a a out xo yo w h)
    (fun r => snd r = out /\ writes (@Ok mem mem (fst r)) m out xo yo w h (fun i j _ => pixel m inp (a + i) (a + j) 0)).
Proof. intros Hd A. pose proof A as [_ R]. revert A. apply C134_to_rgb_swapped; assumption. Qed.
Print Assumptions C134_threshold_partial.
Print Assumptions C134_threshold_band_partial.
Print Assumptions C134_fill_partial.
Print Assumptions C134_histogram_partial.
Print Assumptions C134_lookup_partial.
Print Assumptions C134_to_gray_partial.
Print Assumptions C134_to_rgb_partial.
Example C134_case : area emem8 (img 1 5 4 1 8) 1 1 3 2 /\ area emem8 (img 2 4 3 1 4) 0 1 3 2 /\ area emem8 (img 3 6 5 3 20) 2 0 3 2 /\
  bytes emem8 (img 1 5 4 1 8) /\ len emem8 9 = 0 /\
  disjoint (img 2 4 3 1 4) 0 1 3 2 (img 1 5 4 1 8) 1 1 3 2 /\ disjoint (img 3 6 5 3 20) 2 0 3 2 (img 1 5 4 1 8) 1 1 3 2.
Proof.
  do 3 (split; [solve_area|]). split; [apply emem8_bytes|]. split; [reflexivity|]. split; solve_disjoint.
Qed.

(** The buffer of an image holds its rows and nothing else. *)
Definition exact_buffer (m : mem) (im : image) : Prop := snd (ibase im) = 0 /\ len m (fst (ibase im)) = ih im * irs im.

(** A valid region that does not fit the image after the swap leaves the buffer. *)
Lemma swapped_out m im x y w h : wf m im -> exact_buffer m im -> roi_in im x y w h -> icc im = 1 ->
  ih im < x + h -> (x + h) * irs im + y < W32 ->
  ~ (0 <= snd (at_cl (dataptr im) (swapped_at im x y 1) (irs im) 0 (h - 1)) <
     len m (fst (at_cl (dataptr im) (swapped_at im x y 1) (irs im) 0 (h - 1)))).
Proof.
  intros W [B1 B2] R C Ho Hs. destruct R. pose proof (wf_rs_pos _ _ W) as Hrs.
  unfold at_cl, swapped_at, padd. rewrite (dataptr_ibase m) by assumption. cbn [fst snd]. rewrite B1, B2, Z.mul_1_r.
  pose proof W64_val. unfold W32 in Hs.
  assert (X1 : 0 <= x * irs im) by (apply Z.mul_nonneg_nonneg; lia).
  assert (X2 : x * irs im + h * irs im + y < 4294967296) by (rewrite <- Z.mul_add_distr_r; exact Hs).
  assert (X3 : irs im <= h * irs im) by nia.
  assert (X4 : (h - 1) * irs im = h * irs im - irs im) by ring.
  assert (X5 : ih im * irs im <= (x + (h - 1)) * irs im) by (apply Z.mul_le_mono_nonneg_r; lia).
  rewrite Z.mul_add_distr_r in X5.
  rewrite (u32_small (x * irs im)) by (unfold W32; lia). rewrite (u32_small y) by (unfold W32; lia).
  rewrite (u32_small (x * irs im + y)) by (unfold W32; lia). rewrite u64_small by lia. lia.
Qed.
Lemma device_never_ext {A} (call call' : list nat -> res mem A) : (forall s, call' s = call s) -> never_returns call -> never_returns call'.
Proof. intros H [H1 [s H2]]. split; [intros s'; rewrite H; apply H1|exists s; rewrite H; exact H2]. Qed.
Lemma roi_u32 m im x y w h : wf m im -> roi_in im x y w h -> 0 < w < W32 /\ 0 < h < W32.
Proof. intros W R. pose proof (wf_bounds _ _ W) as (B1 & B2 & _). destruct R. lia. Qed.

Theorem C134_threshold_outside t d m inp xi yi out xo yo w h : cl_ok d -> cl_roomy d ->
  area m inp xi yi w h -> area m out xo yo w h -> icc inp = 1 -> icc out = 1 -> exact_buffer m inp ->
  ih inp < xi + h -> (xi + h) * irs inp + yi < W32 ->
  never_returns (fun s => cl_Threshold t d s m inp xi yi out xo yo w h).
Proof.
  intros Hd Hr [W1 R1] [Wo Ro] C Co B Ho Hs.
  destruct (roi_u32 m inp xi yi w h W1 R1) as [Hw Hh].
  eapply device_never_ext; [|apply (cl_launch2D_doomed d m w h
    (cl_kernel1 (thr_k t) (dataptr inp) (swapped_at inp xi yi 1) (irs inp) (dataptr out) (start_at out xo yo 1) (irs out) w h) 0 (h - 1)); auto; try lia].
  - intros s. unfold cl_Threshold, cl_thr, valid_roi2. rewrite !(valid_roi_ok m), !is_gray_true by assumption. reflexivity.
  - unfold cl_kernel1. rewrite in_range_in by lia. apply doomed_load. eapply swapped_out; eassumption.
Qed.
Theorem C134_fill_outside d m im x y w h v : cl_ok d -> cl_roomy d -> area m im x y w h -> icc im = 1 -> exact_buffer m im ->
  ih im < x + h -> (x + h) * irs im + y < W32 ->
  never_returns (fun s => cl_Fill d s m im x y w h v).
Proof.
  intros Hd Hr [W1 R1] C B Ho Hs. destruct (roi_u32 m im x y w h W1 R1) as [Hw Hh].
  eapply device_never_ext; [|apply (cl_launch2D_doomed d m w h
    (cl_fillKernel (dataptr im) (swapped_at im x y 1) (irs im) w h v) 0 (h - 1)); auto; try lia].
  - intros s. unfold cl_Fill. rewrite (valid_roi_ok m), is_gray_true by assumption. reflexivity.
  - unfold cl_fillKernel. rewrite in_range_in by lia. apply doomed_store. eapply swapped_out; eassumption.
Qed.
(** A block of 40 bytes for images of 10 x 4. *)
Definition mem40 : mem := fun b => mkBlock 40 (fun o => (o * 37 + b * 11) mod 256).
Example C134_outside_case : area mem40 (img 1 10 4 1 10) 7 0 3 2 /\ area mem40 (img 2 10 4 1 10) 0 0 3 2 /\ exact_buffer mem40 (img 1 10 4 1 10) /\
  ih (img 1 10 4 1 10) < 7 + 2 /\ (7 + 2) * 10 + 0 < W32.
Proof. split; [solve_area|]. split; [solve_area|]. split; [split; reflexivity|]. unfold W32. cbn. lia. Qed.
Print Assumptions C134_threshold_outside.
Print Assumptions C134_fill_outside.

(** ** C135: Copy *)
Definition C135_claim : Prop := forall d m inp xi yi out xo yo w h, cl_ok d ->
  area m inp xi yi w h -> area m out xo yo w h -> icc inp = icc out -> disjoint out xo yo w h inp xi yi w h ->
  device_run (cl_roomy d) m (fun s => cl_Copy d s m inp xi yi out xo yo w h)
    (fun M => writes (@Ok mem mem M) m out xo yo w h (fun i j c => pixel m inp (xi + i) (yi + j) c)).
(** Where the copy goes: column 0, row 1, whatever the start in the output. *)
Theorem C135_actual d m inp xi yi out xo yo w h : cl_ok d ->
  roi_in inp xi yi w h -> roi_in out xo yo w h -> area m inp yi xi w h -> area m out 0 1 w h -> icc inp = icc out ->
  no_hazard out 0 1 inp yi xi w h ->
  device_run (cl_roomy d) m (fun s => cl_Copy d s m inp xi yi out xo yo w h)
    (fun M => writes (@Ok mem mem M) m out 0 1 w h (fun i j c => pixel m inp (yi + i) (xi + j) c)).
Proof. apply cl_Copy_run. Qed.
Theorem C135_copy_refuted : ~ C135_claim.
Proof.
  intros H. specialize (H cl256 emem (img 1 5 4 1 8) 0 0 (img 2 5 4 1 8) 0 0 1 1 cl256_ok).
  pose proof (C135_actual cl256 emem (img 1 5 4 1 8) 0 0 (img 2 5 4 1 8) 0 0 1 1 cl256_ok) as G.
  destruct (device_run_both _ _ _ _ _ (H ltac:(solve_area) ltac:(solve_area) eq_refl ltac:(solve_disjoint))
    (G ltac:(solve_roi) ltac:(solve_roi) ltac:(solve_area) ltac:(solve_area) eq_refl ltac:(apply hazard_of_disjoint; solve_disjoint)) cl256_roomy) as (M & Q1 & Q2).
  pose proof (writes_at _ _ _ _ _ _ _ _ 0 0 0 Q1 ltac:(solve_inside)) as E1.
  pose proof (writes_kept _ _ _ _ _ _ _ _ (px (img 2 5 4 1 8) 0 0 0) Q2) as E2.
  unfold pixel at 1 in E1. change (0 + 0) with 0 in E1. rewrite E2 in E1.
  - vm_compute in E1. discriminate.
  - intros i j c (Hi & Hj & Hc) E. cbn in Hc. assert (i = 0) by lia. assert (j = 0) by lia. assert (c = 0) by lia. subst. vm_compute in E. discriminate.
Qed.
Theorem C135_copy_partial d m inp a out w h : cl_ok d ->
  area m inp a a w h -> area m out 0 1 w h -> icc inp = icc out -> no_hazard out 0 1 inp a a w h ->
  device_run (cl_roomy d) m (fun s => cl_Copy d s m inp a a out 0 1 w h)
    (fun M => writes (@Ok mem mem M) m out 0 1 w h (fun i j c => pixel m inp (a + i) (a + j) c)).
Proof. intros Hd A Ao. pose proof A as [_ R]. pose proof Ao as [_ Ro]. apply C135_actual; assumption. Qed.
(** A region as high as the output image never fits: the last row is written behind the
    buffer, if the kernel gets that far. *)
Theorem C135_full_height_outside d m inp xi yi out xo yo w h : cl_ok d -> cl_roomy d ->
  area m inp xi yi w h -> area m out xo yo w h -> icc inp = icc out -> exact_buffer m out -> h = ih out ->
  never_returns (fun s => cl_Copy d s m inp xi yi out xo yo w h).
Proof.
  intros Hd Hr [W1 R1] [Wo Ro] C [B1 B2] Eh.
  destruct (roi_u32 m out xo yo w h Wo Ro) as [_ Hh].
  assert (Hw : u32 (w * icc out) = w * icc out) by (destruct Ro; apply (u32_width m out xo); auto; lia).
  pose proof (wf_rs_pos _ _ Wo) as Hrs. pose proof (wf_rs _ _ Wo) as Hrs2. pose proof (wf_size _ _ Wo) as Hsz.
  pose proof (wf_cc_pos _ _ Wo) as Hcc. destruct Ro.
  assert (Hwc : 0 < w * icc out < W32) by nia.
  eapply device_never_ext; [|apply (cl_launch2D_doomed d m (w * icc out) h
    (cl_copyKernel (dataptr inp) (swapped_at inp xi yi (icc inp)) (irs inp)
       (dataptr out) (start_at out xo yo (icc inp)) (irs out) (w * icc out) h) 0 (h - 1)); auto; try lia].
  - intros s. unfold cl_Copy, valid_roi2, common_cc2. rewrite !(valid_roi_ok m) by (try assumption; constructor; assumption). cbn [andb].
    rewrite C, Z.eqb_refl, Hw. reflexivity.
  - unfold cl_copyKernel. rewrite in_range_in by lia. apply doomed_after. intros v. apply doomed_store.
    unfold at_cl, padd. rewrite (dataptr_ibase m) by assumption. cbn [fst snd]. rewrite B1, B2.
    assert (X : irs out + (h - 1) * irs out + 0 = ih out * irs out) by (subst h; ring). rewrite X, u64_small; [lia|].
    unfold W32 in Hsz. rewrite W64_val. nia.
Qed.
Example C135_case : area emem (img 1 5 4 3 16) 1 1 3 2 /\ area emem (img 2 4 3 3 12) 0 1 3 2 /\
  disjoint (img 2 4 3 3 12) 0 1 3 2 (img 1 5 4 3 16) 1 1 3 2.
Proof. split; [solve_area|]. split; [solve_area|solve_disjoint]. Qed.
Example C135_outside_case : area mem40 (img 1 10 4 1 10) 0 0 10 4 /\ area mem40 (img 2 10 4 1 10) 0 0 10 4 /\ exact_buffer mem40 (img 2 10 4 1 10).
Proof. split; [solve_area|]. split; [solve_area|split; reflexivity]. Qed.
Print Assumptions C135_actual.
Print Assumptions C135_copy_refuted.
Print Assumptions C135_copy_partial.
Print Assumptions C135_full_height_outside.

(** ** C136: ExtractChannel *)
Definition C136_claim : Prop := forall d m inp xi yi out xo yo w h ch, cl_ok d ->
  area m inp xi yi w h -> area m out xo yo w h -> icc out = 1 -> 0 <= ch < icc inp -> disjoint out xo yo w h inp xi yi w h ->
  device_run (cl_roomy d) m (fun s => cl_ExtractChannel d s m inp xi yi out xo yo w h ch)
    (fun M => writes (@Ok mem mem M) m out xo yo w h (fun i j _ => pixel m inp (xi + i) (yi + j) ch)).
(** What it does: the region starts at (startY, startX) and of its rows only every colorCount-th
    is read. *)
Theorem C136_actual d m inp xi yi out xo yo w h ch : cl_ok d -> roi_in inp xi yi w h ->
  area m inp yi xi w ((h - 1) * icc inp + 1) -> area m out xo yo w h -> icc out = 1 -> 0 <= ch < icc inp ->
  disjoint out xo yo w h inp yi xi w ((h - 1) * icc inp + 1) ->
  device_run (cl_roomy d) m (fun s => cl_ExtractChannel d s m inp xi yi out xo yo w h ch)
    (fun M => writes (@Ok mem mem M) m out xo yo w h (fun i j _ => pixel m inp (yi + i) (xi + j * icc inp) ch)).
Proof. apply cl_Extract_run. Qed.
(** Rows 0 and 1 of an RGB image of 7 rows: the second row comes from row 3. *)
Theorem C136_extract_refuted : ~ C136_claim.
Proof.
  intros H. specialize (H cl256 emem (img 1 5 7 3 16) 0 0 (img 2 5 4 1 8) 0 0 2 2 1 cl256_ok).
  pose proof (C136_actual cl256 emem (img 1 5 7 3 16) 0 0 (img 2 5 4 1 8) 0 0 2 2 1 cl256_ok) as G.
  destruct (device_run_both _ _ _ _ _ (H ltac:(solve_area) ltac:(solve_area) eq_refl ltac:(cbn; lia) ltac:(solve_disjoint))
    (G ltac:(solve_roi) ltac:(solve_area) ltac:(solve_area) eq_refl ltac:(cbn; lia) ltac:(solve_disjoint)) cl256_roomy) as (M & Q1 & Q2).
  pose proof (writes_at _ _ _ _ _ _ _ _ 0 1 0 Q1 ltac:(solve_inside)) as E1.
  pose proof (writes_at _ _ _ _ _ _ _ _ 0 1 0 Q2 ltac:(solve_inside)) as E2. rewrite E1 in E2. vm_compute in E2. discriminate.
Qed.
Theorem C136_extract_partial d m inp a out xo yo w h ch : cl_ok d -> h = 1 \/ icc inp = 1 ->
  area m inp a a w h -> area m out xo yo w h -> icc out = 1 -> 0 <= ch < icc inp -> disjoint out xo yo w h inp a a w h ->
  device_run (cl_roomy d) m (fun s => cl_ExtractChannel d s m inp a a out xo yo w h ch)
    (fun M => writes (@Ok mem mem M) m out xo yo w h (fun i j _ => pixel m inp (a + i) (a + j) ch)).
Proof.
  intros Hd Hone A Ao Co Hch D. pose proof A as [_ R].
  assert (Es : (h - 1) * icc inp + 1 = h) by (destruct Hone as [-> | ->]; ring).
  eapply device_run_weak; [|apply C136_actual; try assumption; rewrite Es; assumption].
  intros M HM. eapply writes_ext; [exact HM|]. intros i j c (_ & Hj & _). cbv beta. f_equal.
  destruct Hone as [-> | ->]; nia.
Qed.
(** With more channels than one, the rows of the lower part of an image are read from behind
    the buffer. *)
Theorem C136_outside d m inp xi yi out xo yo w h ch : cl_ok d -> cl_roomy d ->
  area m inp xi yi w h -> area m out xo yo w h -> icc out = 1 -> 0 <= ch < icc inp -> exact_buffer m inp ->
  ih inp <= xi + (h - 1) * icc inp -> (xi + (h - 1) * icc inp) * irs inp + yi * icc inp + ch < W32 ->
  never_returns (fun s => cl_ExtractChannel d s m inp xi yi out xo yo w h ch).
Proof.
  intros Hd Hr [W1 R1] [Wo Ro] Co Hch [B1 B2] Ho Hs.
  destruct (roi_u32 m inp xi yi w h W1 R1) as [Hw Hh]. pose proof (wf_rs_pos _ _ W1) as Hrs.
  eapply device_never_ext; [|apply (cl_launch2D_doomed d m w h
    (cl_extractKernel (dataptr inp) (swapped_at inp xi yi (icc inp)) (irs inp) (icc inp)
       (dataptr out) (start_at out xo yo (icc out)) (irs out) w h ch) 0 (h - 1)); auto; try lia].
  - intros s. unfold cl_ExtractChannel, valid_roi2. rewrite !(valid_roi_ok m), is_gray_true by assumption. cbn [andb].
    destruct (Z.ltb_spec ch (icc inp)); [|lia]. reflexivity.
  - unfold cl_extractKernel. rewrite in_range_in by lia. apply doomed_load.
    unfold swapped_at, padd. rewrite (dataptr_ibase m) by assumption. cbn [fst snd]. rewrite B1, B2.
    destruct R1. pose proof W64_val. unfold W32 in *.
    assert (X1 : 0 <= xi * irs inp) by (apply Z.mul_nonneg_nonneg; lia).
    assert (X2 : 0 <= yi * icc inp) by (apply Z.mul_nonneg_nonneg; lia).
    assert (X3 : 0 <= (h - 1) * irs inp * icc inp) by (repeat apply Z.mul_nonneg_nonneg; lia).
    assert (X4 : (xi + (h - 1) * icc inp) * irs inp = xi * irs inp + (h - 1) * irs inp * icc inp) by ring.
    assert (X5 : ih inp * irs inp <= (xi + (h - 1) * icc inp) * irs inp) by (apply Z.mul_le_mono_nonneg_r; lia).
    rewrite X4 in *.
    rewrite (u32_small (xi * irs inp)) by (unfold W32; lia). rewrite (u32_small (yi * icc inp)) by (unfold W32; lia).
    rewrite (u32_small (xi * irs inp + yi * icc inp)) by (unfold W32; lia).
    replace (((h - 1) * irs inp + 0) * icc inp) with ((h - 1) * irs inp * icc inp) by ring.
    rewrite u64_small by lia. lia.
Qed.
(** A block of 48 bytes for an RGB image of 4 x 4. *)
Definition mem48 : mem := fun b => mkBlock 48 (fun o => (o * 37 + b * 11) mod 256).
Example C136_outside_case : area mem48 (img 1 4 4 3 12) 0 0 4 4 /\ area mem48 (img 2 4 4 1 4) 0 0 4 4 /\ exact_buffer mem48 (img 1 4 4 3 12) /\
  4 <= 0 + (4 - 1) * 3.
Proof. split; [solve_area|]. split; [solve_area|]. split; [split; reflexivity|lia]. Qed.
Example C136_case : area emem (img 1 5 4 3 16) 1 1 3 1 /\ area emem (img 2 4 3 1 4) 0 1 3 1 /\ disjoint (img 2 4 3 1 4) 0 1 3 1 (img 1 5 4 3 16) 1 1 3 1.
Proof. split; [solve_area|]. split; [solve_area|solve_disjoint]. Qed.
Print Assumptions C136_actual.
Print Assumptions C136_extract_refuted.
Print Assumptions C136_extract_partial.
Print Assumptions C136_outside.

(** ** C137: Flip *)
Definition C137_claim : Prop := forall d m inp xi yi out xo yo w h hor ver, cl_ok d ->
  area m inp xi yi w h -> area m out xo yo w h -> icc inp = 1 -> icc out = 1 -> disjoint out xo yo w h inp xi yi w h ->
  device_run (cl_roomy d) m (fun s => cl_Flip d s m inp xi yi out xo yo w h hor ver)
    (fun M => writes (@Ok mem mem M) m out xo yo w h
       (fun i j _ => pixel m inp (xi + (if hor : bool then w - 1 - i else i)) (yi + (if ver : bool then h - 1 - j else j)) 0)).
(** A single pixel comes back unchanged from a flip; here it becomes the last pixel of the
    row of the image. *)
Theorem C137_flip_refuted : ~ C137_claim.
Proof.
  intros H. specialize (H cl256 emem (img 1 5 4 1 8) 0 0 (img 2 5 4 1 8) 0 0 1 1 true false cl256_ok).
  pose proof (cl_Flip_run cl256 emem (img 1 5 4 1 8) 0 0 (img 2 5 4 1 8) 0 0 1 1 true false cl256_ok (or_introl eq_refl)) as G.
  destruct (device_run_both _ _ _ _ _ (H ltac:(solve_area) ltac:(solve_area) eq_refl eq_refl ltac:(solve_disjoint))
    (G ltac:(solve_roi) ltac:(solve_roi) ltac:(solve_area) ltac:(solve_area) eq_refl eq_refl ltac:(solve_disjoint)) cl256_roomy) as (M & Q1 & Q2).
  pose proof (writes_at _ _ _ _ _ _ _ _ 0 0 0 Q1 ltac:(solve_inside)) as E1.
  pose proof (writes_at _ _ _ _ _ _ _ _ 0 0 0 Q2 ltac:(solve_inside)) as E2. rewrite E1 in E2. vm_compute in E2. discriminate.
Qed.
(** Right when the region is the whole input image. *)
Theorem C137_flip_partial d m inp out xo yo hor ver : cl_ok d -> hor = true \/ ver = true ->
  wf m inp -> area m out xo yo (iw inp) (ih inp) -> icc inp = 1 -> icc out = 1 ->
  disjoint out xo yo (iw inp) (ih inp) inp 0 0 (iw inp) (ih inp) ->
  device_run (cl_roomy d) m (fun s => cl_Flip d s m inp 0 0 out xo yo (iw inp) (ih inp) hor ver)
    (fun M => writes (@Ok mem mem M) m out xo yo (iw inp) (ih inp)
       (fun i j _ => pixel m inp (if hor then iw inp - 1 - i else i) (if ver then ih inp - 1 - j else j) 0)).
Proof.
  intros Hd Hf W Ao C Co D.
  assert (R : roi_in inp 0 0 (iw inp) (ih inp)) by (pose proof (wf_w _ _ W); pose proof (wf_h _ _ W); constructor; lia).
  pose proof Ao as [_ Ro].
  eapply device_run_weak; [|apply (cl_Flip_run d m inp 0 0 out xo yo (iw inp) (ih inp) hor ver); auto; split; assumption].
  intros M HM. eapply writes_ext; [exact HM|]. intros i j c _. cbv beta. unfold mirror. rewrite !Z.add_0_l. reflexivity.
Qed.
(** A part of an image that is higher than the output: behind the buffer of the output. *)
Theorem C137_outside d m inp xi yi out xo yo w h hor ver : cl_ok d -> cl_roomy d -> hor = true \/ ver = true ->
  area m inp xi yi w h -> area m out xo yo w h -> icc inp = 1 -> icc out = 1 -> exact_buffer m out ->
  ih out < yo + ih inp ->
  never_returns (fun s => cl_Flip d s m inp xi yi out xo yo w h hor ver).
Proof.
  intros Hd Hr Hf [W1 R1] [Wo Ro] C Co [B1 B2] Ho.
  pose proof (wf_bounds _ _ W1) as (Bw & Bh & _). pose proof (wf_w _ _ W1). pose proof (wf_h _ _ W1).
  pose proof (wf_rs_pos _ _ Wo) as Hrs. pose proof (wf_size _ _ Wo) as Hsz. pose proof (wf_bounds _ _ Wo) as (Bw' & Bh' & Br').
  set (y0 := if ver then 0 else ih inp - 1). set (x0 := if hor then iw inp - 1 else 0).
  eapply device_never_ext; [|apply (cl_launch2D_doomed d m (iw inp) (ih inp)
    (cl_flipKernel (dataptr inp) (start_at inp xi yi 1) (irs inp) (dataptr out) (start_at out xo yo 1) (irs out)
       (iw inp) (ih inp) hor ver) x0 y0); auto; try lia].
  - intros s. unfold cl_Flip, valid_roi2. rewrite !(valid_roi_ok m), !is_gray_true by assumption. cbn [andb].
    assert (En : negb hor && negb ver = false) by (destruct hor, ver; try reflexivity; destruct Hf; discriminate).
    rewrite En. reflexivity.
  - unfold x0. destruct hor; lia.
  - unfold y0. destruct ver; lia.
  - unfold cl_flipKernel. rewrite in_range_in; [|unfold x0; destruct hor; lia|unfold y0; destruct ver; lia].
    apply doomed_after. intros v. apply doomed_store.
    destruct (dataptr_origin m out xo yo w h Wo Ro) as [_ Es]. rewrite Co in Es. rewrite Es.
    assert (Ex : (if hor then u64 (iw inp - 1 - x0) else x0) = 0).
    { unfold x0. destruct hor; [|reflexivity]. rewrite Z.sub_diag. reflexivity. }
    assert (Ey : (if ver then u64 (ih inp - 1 - y0) else y0) = ih inp - 1).
    { unfold y0. destruct ver; [|reflexivity]. rewrite Z.sub_0_r. apply u64_small. rewrite W64_val. unfold W32 in *. lia. }
    rewrite Ex, Ey. unfold at_cl, padd. rewrite (dataptr_ibase m) by assumption. cbn [fst snd]. rewrite B1, B2.
    destruct Ro. assert (X0 : 0 <= yo * irs out) by (apply Z.mul_nonneg_nonneg; lia).
    assert (X1 : 0 <= (ih inp - 1) * irs out) by (apply Z.mul_nonneg_nonneg; lia).
    assert (X2 : yo * irs out <= ih out * irs out) by (apply Z.mul_le_mono_nonneg_r; lia).
    assert (X3 : ih out * irs out <= (yo + (ih inp - 1)) * irs out) by (apply Z.mul_le_mono_nonneg_r; lia).
    assert (X4 : (yo + (ih inp - 1)) * irs out = yo * irs out + (ih inp - 1) * irs out) by ring.
    assert (X5 : (ih inp - 1) * irs out <= 4294967296 * 4294967296 - 2 * 4294967296).
    { unfold W32 in *. transitivity (4294967294 * irs out); [apply Z.mul_le_mono_nonneg_r; lia|lia]. }
    rewrite u64_small; [lia|]. rewrite W64_val. unfold W32 in *. lia.
Qed.
Example C137_case : wf emem (img 1 5 4 1 8) /\ area emem (img 2 6 5 1 8) 1 0 5 4 /\ disjoint (img 2 6 5 1 8) 1 0 5 4 (img 1 5 4 1 8) 0 0 5 4.
Proof. split; [solve_wf|]. split; [solve_area|solve_disjoint]. Qed.
Example C137_outside_case : area mem40 (img 1 5 8 1 5) 0 0 2 2 /\ area mem40 (img 2 10 4 1 10) 0 0 2 2 /\ exact_buffer mem40 (img 2 10 4 1 10) /\ 4 < 0 + 8.
Proof. split; [solve_area|]. split; [solve_area|]. split; [split; reflexivity|lia]. Qed.
Print Assumptions C137_flip_refuted.
Print Assumptions C137_flip_partial.
Print Assumptions C137_outside.

(** ** C138: arguments of the kernels *)
Definition C138_claim : Prop :=
  (forall tab d m inp xi yi out xo yo w h b b', cl_ok d -> cl_roomy d ->
     area m inp xi yi w h -> area m out xo yo w h -> icc inp = icc out -> len m b = 0 -> len m b' = 0 -> b <> b' ->
     exists sched sched' r, cl_Normalize tab d (Some b) (Some b') sched sched' m inp xi yi out xo yo w h = Ok r) /\
  (forall d m im X Y v b1 b2, cl_ok d -> cl_roomy d -> wf m im -> length X = length Y -> X <> [] ->
     (forall x y, In (x, y) (combine X Y) -> 0 <= x < iw im /\ 0 <= y < ih im) -> len m b1 = 0 -> len m b2 = 0 -> b1 <> b2 ->
     exists ov sched r, cl_SetPixels ov d (Some b1) (Some b2) sched m im X Y v = Ok r).

Lemma without_same m M b : (forall p, get M p = get m p) -> (forall k, len M k = len m k) -> same_mem m (without_block m M b).
Proof.
  intros H1 H2. unfold without_block. split.
  - intros p. unfold get in *. destruct (fst p =? b); [reflexivity|apply H1].
  - intros k. unfold len in *. destruct (k =? b); [reflexivity|apply H2].
Qed.
Lemma without_with m b vs : same_mem m (without_block m (with_block m b vs) b).
Proof.
  unfold without_block, with_block. split.
  - intros p. unfold get. destruct (fst p =? b); reflexivity.
  - intros k. unfold len. destruct (k =? b); reflexivity.
Qed.
(** Nine arguments for a kernel with six parameters. *)
Theorem C138_normalize_throws tab d fresh fresh' sched sched' m inp xi yi out xo yo w h :
  exists M, cl_Normalize tab d fresh fresh' sched sched' m inp xi yi out xo yo w h = Throw M /\ same_mem m M.
Proof.
  unfold cl_Normalize. destruct (valid_roi2 inp xi yi out xo yo w h); [|exists m; split; [reflexivity|apply same_mem_refl]].
  destruct (common_cc2 inp out); [|exists m; split; [reflexivity|apply same_mem_refl]].
  destruct fresh as [b|]; [|exists m; split; [reflexivity|apply same_mem_refl]].
  eexists. split; [reflexivity|apply without_with].
Qed.
(** Eight arguments for nine parameters, or a memory object where a number is expected:
    whichever of the two kernels of that name is taken. *)
Theorem C138_set_pixels_throws ov d fresh1 fresh2 sched m im X Y v :
  exists M, cl_SetPixels ov d fresh1 fresh2 sched m im X Y v = Throw M /\ same_mem m M.
Proof.
  unfold cl_SetPixels. destruct (valid_image im); [|exists m; split; [reflexivity|apply same_mem_refl]].
  destruct ov; [exists m; split; [reflexivity|apply same_mem_refl]| |];
    (destruct (negb (Nat.eqb (length X) 0) && Nat.eqb (length X) (length Y)); [|exists m; split; [reflexivity|apply same_mem_refl]]);
    (match goal with |- context [forallb ?f ?l] => destruct (forallb f l); [|exists m; split; [reflexivity|apply same_mem_refl]] end);
    (destruct fresh1 as [b1|]; [|exists m; split; [reflexivity|apply same_mem_refl]]);
    (destruct fresh2 as [b2|]; [|eexists; split; [reflexivity|apply without_with]]);
    (eexists; split; [reflexivity|]); (destruct (without_with (with_block m b1 X) b2 Y) as [S1 S2]);
    (split; [intros p|intros k]);
    (destruct (without_with m b1 X) as [T1 T2]); rewrite <- ?T1, <- ?T2; unfold without_block;
    [unfold get in *; destruct (fst p =? b1); [reflexivity|rewrite <- S1; reflexivity]
    |unfold len in *; destruct (k =? b1); [reflexivity|rewrite <- S2; reflexivity]
    |unfold get in *; destruct (fst p =? b1); [reflexivity|rewrite <- S1; reflexivity]
    |unfold len in *; destruct (k =? b1); [reflexivity|rewrite <- S2; reflexivity]].
Qed.
Theorem C138_arguments_refuted : ~ C138_claim.
Proof.
  intros [H _]. destruct (H (fun _ _ => zrange 256) cl256 emem8 (img 1 5 4 1 8) 0 0 (img 2 5 4 1 8) 0 0 5 4 9 10 cl256_ok cl256_roomy)
    as (s & s' & r & E); try solve_area; try reflexivity; try lia.
  destruct (C138_normalize_throws (fun _ _ => zrange 256) cl256 (Some 9) (Some 10) s s' emem8 (img 1 5 4 1 8) 0 0 (img 2 5 4 1 8) 0 0 5 4) as (M & E' & _).
  rewrite E in E'. discriminate.
Qed.
Theorem C138_set_pixels_refuted : ~ C138_claim.
Proof.
  intros [_ H]. destruct (H cl256 emem8 (img 1 5 4 1 8) [3; 0] [1; 2] 7 9 10 cl256_ok cl256_roomy) as (ov & s & r & E).
  - solve_wf.
  - reflexivity.
  - discriminate.
  - cbn [combine In]. intros x y [E|[E|[]]]; injection E as <- <-; cbn; lia.
  - reflexivity.
  - reflexivity.
  - lia.
  - destruct (C138_set_pixels_throws ov cl256 (Some 9) (Some 10) s emem8 (img 1 5 4 1 8) [3; 0] [1; 2] 7) as (M & E' & _).
    rewrite E in E'. discriminate.
Qed.
Print Assumptions C138_normalize_throws.
Print Assumptions C138_set_pixels_throws.
Print Assumptions C138_arguments_refuted.
Print Assumptions C138_set_pixels_refuted.

(** ** C139: SetPixel *)
Definition C139_claim : Prop := forall d m im x y v, cl_ok d -> wf m im -> icc im = 1 -> 0 <= x < iw im -> 0 <= y < ih im ->
  device_run (cl_roomy d) m (fun s => cl_SetPixel OnePixel d s m im x y v)
    (fun M => pixel M im x y 0 = v /\ (forall p, p <> px im x y 0 -> get M p = get m p)).
(** The pixel (x + y, x + y) is written: the position is added twice, once with x and y in
    each other's place. *)
Theorem C139_actual d m im x y v : cl_ok d -> wf m im -> icc im = 1 -> 0 <= x < iw im -> 0 <= y < ih im ->
  (x + y) * irs im + (x + y) < ih im * irs im ->
  device_run (cl_roomy d) m (fun s => cl_SetPixel OnePixel d s m im x y v)
    (fun M => pixel M im (x + y) (x + y) 0 = v /\ (forall p, p <> px im (x + y) (x + y) 0 -> get M p = get m p) /\
       (forall b, len M b = len m b)).
Proof. intros Hd W C Hx Hy Hs. unfold pixel. rewrite <- (byte_at_px im _ _ C). apply cl_SetPixel_run; assumption. Qed.
Theorem C139_set_pixel_refuted : ~ C139_claim.
Proof.
  intros H. specialize (H cl256 emem (img 1 5 4 1 8) 1 0 7 cl256_ok).
  pose proof (C139_actual cl256 emem (img 1 5 4 1 8) 1 0 7 cl256_ok) as G.
  destruct (device_run_both _ _ _ _ _ (H ltac:(solve_wf) eq_refl ltac:(cbn; lia) ltac:(cbn; lia))
    (G ltac:(solve_wf) eq_refl ltac:(cbn; lia) ltac:(cbn; lia) ltac:(cbn; lia)) cl256_roomy) as (M & [E1 _] & _ & E2 & _).
  unfold pixel in E1. rewrite E2 in E1 by discriminate. vm_compute in E1. discriminate.
Qed.
(** Only the first pixel is right. *)
Theorem C139_set_pixel_partial d m im v : cl_ok d -> wf m im -> icc im = 1 ->
  device_run (cl_roomy d) m (fun s => cl_SetPixel OnePixel d s m im 0 0 v)
    (fun M => pixel M im 0 0 0 = v /\ (forall p, p <> px im 0 0 0 -> get M p = get m p) /\ (forall b, len M b = len m b)).
Proof.
  intros Hd W C. pose proof (wf_w _ _ W). pose proof (wf_h _ _ W). pose proof (wf_rs_pos _ _ W).
  apply (C139_actual d m im 0 0 v); auto; try lia.
Qed.
Theorem C139_other_pixels_kept d m im x y v : cl_ok d -> wf m im -> icc im = 1 -> 0 <= x < iw im -> 0 <= y < ih im ->
  (x + y) * irs im + (x + y) < ih im * irs im -> (x, y) <> (0, 0) ->
  device_run (cl_roomy d) m (fun s => cl_SetPixel OnePixel d s m im x y v) (fun M => pixel M im x y 0 = pixel m im x y 0).
Proof.
  intros Hd W C Hx Hy Hs Hne. eapply device_run_weak; [|apply (C139_actual d m im x y v); assumption].
  intros M (_ & Q & _). apply Q. pose proof (wf_rs_pos _ _ W) as Hrs.
  unfold px. rewrite C. intros E. injection E as E. apply Hne.
  assert (0 <= x * irs im) by (apply Z.mul_nonneg_nonneg; lia).
  assert (X4 : (x + y) * irs im = x * irs im + y * irs im) by ring. rewrite X4 in E.
  assert (y = 0) by lia. assert (x = 0) by nia. congruence.
Qed.
Lemma cl_launch1D_doomed d m n k : cl_ok d -> cl_roomy d -> 0 < n < W32 -> doomed m (k 0) -> never_returns (fun s => cl_launch1D d s m n k).
Proof.
  intros Hd Hr Hn H. assert (P : W32 < 2 ^ 62) by (vm_compute; reflexivity).
  destruct (params1_ok d n Hd) as (r & E & Gx & _ & Ha); [lia|]. specialize (Ha Hr).
  assert (R : never_returns (fun s => run_grid s m (map k (zrange (dx (rGlobal r)))))).
  { apply (run_grid_doomed m _ (k 0)); [|exact H]. apply in_map. apply zrange_In. lia. }
  destruct R as [R1 [s R2]]. split.
  - intros s'. unfold cl_launch1D. rewrite E. cbn [bind]. rewrite Ha. apply R1.
  - exists s. unfold cl_launch1D. rewrite E. cbn [bind]. rewrite Ha. exact R2.
Qed.
(** A pixel in the lower right half: behind the buffer. *)
Theorem C139_outside d m im x y v : cl_ok d -> cl_roomy d -> wf m im -> exact_buffer m im -> 0 <= x < iw im -> 0 <= y < ih im ->
  ih im <= x + y -> (x + y) * irs im + (x + y) < W32 ->
  never_returns (fun s => cl_SetPixel OnePixel d s m im x y v).
Proof.
  intros Hd Hr W [B1 B2] Hx Hy Ho Hs. pose proof (wf_rs_pos _ _ W) as Hrs.
  eapply device_never_ext; [|apply (cl_launch1D_doomed d m 1
    (cl_setPixelKernel (dataptr im) (swapped_at im x y 1) (irs im) (iw im) (ih im) x y v)); auto].
  - intros s. unfold cl_SetPixel. rewrite (valid_image_ok m) by assumption.
    destruct (Z.leb_spec (iw im) x); [lia|]. destruct (Z.leb_spec (ih im) y); [lia|]. reflexivity.
  - unfold W32. lia.
  - unfold cl_setPixelKernel. rewrite in_range_in by lia. apply doomed_store.
    unfold swapped_at, padd. rewrite (dataptr_ibase m), Z.mul_1_r by assumption. cbn [fst snd]. rewrite B1, B2.
    assert (X1 : 0 <= x * irs im) by (apply Z.mul_nonneg_nonneg; lia).
    assert (X2 : 0 <= y * irs im) by (apply Z.mul_nonneg_nonneg; lia).
    assert (X3 : ih im * irs im <= (x + y) * irs im) by (apply Z.mul_le_mono_nonneg_r; lia).
    assert (X4 : (x + y) * irs im = x * irs im + y * irs im) by ring. rewrite X4 in *.
    rewrite (u32_small (x * irs im)), (u32_small (y * irs im)), (u32_small y) by lia.
    rewrite (u32_small (x * irs im + y)) by lia. rewrite (u32_small (x * irs im + y + y * irs im)) by lia.
    rewrite u32_small by lia. lia.
Qed.
(** Outside the image: refused. *)
Theorem C139_outside_refused ov d m im x y v sched : wf m im -> iw im <= x \/ ih im <= y -> cl_SetPixel ov d sched m im x y v = Throw m.
Proof.
  intros W Ho. unfold cl_SetPixel. rewrite (valid_image_ok m) by assumption.
  destruct ov; [reflexivity| |]; (destruct (Z.leb_spec (iw im) x), (Z.leb_spec (ih im) y); try reflexivity; lia).
Qed.
Example C139_case : wf emem (img 1 5 4 1 8) /\ wf mem40 (img 1 10 4 1 10) /\ exact_buffer mem40 (img 1 10 4 1 10) /\ 4 <= 3 + 2.
Proof. split; [solve_wf|]. split; [solve_wf|]. split; [split; reflexivity|lia]. Qed.
Print Assumptions C139_actual.
Print Assumptions C139_set_pixel_refuted.
Print Assumptions C139_set_pixel_partial.
Print Assumptions C139_other_pixels_kept.
Print Assumptions C139_outside.
Print Assumptions C139_outside_refused.

(** ** C140: copies between host and device *)
Definition C140_claim : Prop := forall m inp out, wf m inp -> wf m out -> built inp -> built out ->
  iw inp = iw out -> ih inp = ih out -> icc inp = icc out ->
  disjoint out 0 0 (iw out) (ih out) inp 0 0 (iw out) (ih out) ->
  writes (ConvertToOpenCL m inp out) m out 0 0 (iw out) (ih out) (fun i j c => pixel m inp i j c).
Definition C140_back_claim : Prop := forall m inp out, wf m inp -> wf m out -> built inp -> built out ->
  iw inp = iw out -> ih inp = ih out -> icc inp = icc out ->
  disjoint out 0 0 (iw out) (ih out) inp 0 0 (iw out) (ih out) ->
  writes (ConvertFromOpenCL m inp out) m out 0 0 (iw out) (ih out) (fun i j c => pixel m inp i j c).
(** A host image with padding, such as one read from a bitmap, is never copied. *)
Theorem C140_padded_host_throws m host dev : wf m host -> wf m dev -> ~ unpadded host -> ial host <> 1 ->
  ConvertToOpenCL m host dev = Throw m /\ ConvertFromOpenCL m dev host = Throw m.
Proof.
  intros W1 W2 U A.
  assert (Eu : u32 (iw host * icc host) = iw host * icc host).
  { pose proof (wf_rs _ _ W1). pose proof (wf_size _ _ W1). pose proof (wf_h _ _ W1). pose proof (wf_w _ _ W1).
    pose proof (wf_cc_pos _ _ W1). apply u32_small. nia. }
  assert (Eg : (ial host =? 1) || (irs host =? u32 (iw host * icc host)) = false).
  { rewrite Eu. destruct (Z.eqb_spec (ial host) 1); [contradiction|]. destruct (Z.eqb_spec (irs host) (iw host * icc host)) as [E|E]; [|reflexivity].
    destruct (U E). }
  unfold ConvertToOpenCL, ConvertFromOpenCL. rewrite Eg. split.
  - destruct (valid_image host && valid_image dev); [|reflexivity].
    destruct ((iw host =? iw dev) && (ih host =? ih dev) && (icc host =? icc dev)); reflexivity.
  - destruct (valid_pair dev host); [|reflexivity].
    destruct ((iw dev =? iw host) && (ih dev =? ih host) && (icc dev =? icc host)); reflexivity.
Qed.
Theorem C140_to_device_refuted : ~ C140_claim.
Proof.
  intros H. specialize (H emem (img4 1 3 2 1 4) (img 2 3 2 1 3)).
  destruct H as (m' & He & _ & _); try solve_wf; try reflexivity; try (intros E; discriminate E); try (intros _; reflexivity).
  - solve_disjoint.
  - rewrite (proj1 (C140_padded_host_throws emem (img4 1 3 2 1 4) (img 2 3 2 1 3) ltac:(solve_wf) ltac:(solve_wf) ltac:(discriminate) ltac:(discriminate))) in He.
    discriminate.
Qed.
Theorem C140_from_device_refuted : ~ C140_back_claim.
Proof.
  intros H. specialize (H emem (img 2 3 2 1 3) (img4 1 3 2 1 4)).
  destruct H as (m' & He & _ & _); try solve_wf; try reflexivity; try (intros E; discriminate E); try (intros _; reflexivity).
  - solve_disjoint.
  - rewrite (proj2 (C140_padded_host_throws emem (img4 1 3 2 1 4) (img 2 3 2 1 3) ltac:(solve_wf) ltac:(solve_wf) ltac:(discriminate) ltac:(discriminate))) in He.
    discriminate.
Qed.
(** Padding on the device only: sheared rows one way, past the end of the host buffer the
    other way. *)
Theorem C140_padded_device_shears : exists M, ConvertToOpenCL emem (img 1 3 2 1 3) (img4 2 3 2 1 4) = Ok M /\
  pixel M (img4 2 3 2 1 4) 0 1 0 <> pixel emem (img 1 3 2 1 3) 0 1 0.
Proof. eexists. split; [reflexivity|]. vm_compute. discriminate. Qed.
Theorem C140_padded_device_overflows : ConvertFromOpenCL c128_mem (img4 1 3 2 1 4) (img 2 3 2 1 3) = UB.
Proof. vm_compute. reflexivity. Qed.
Theorem C140_conversion_partial m inp out : wf m inp -> wf m out -> iw inp = iw out -> ih inp = ih out -> icc inp = icc out ->
  unpadded inp -> unpadded out -> disjoint out 0 0 (iw out) (ih out) inp 0 0 (iw out) (ih out) ->
  writes (ConvertToOpenCL m inp out) m out 0 0 (iw out) (ih out) (fun i j c => pixel m inp i j c) /\
  writes (ConvertFromOpenCL m inp out) m out 0 0 (iw out) (ih out) (fun i j c => pixel m inp i j c).
Proof. apply ConvertToOpenCL_run. Qed.
Theorem C140_round_trip_partial m host dev back : wf m host -> wf m dev -> wf m back -> unpadded host -> unpadded dev -> unpadded back ->
  iw host = iw dev -> ih host = ih dev -> icc host = icc dev -> iw dev = iw back -> ih dev = ih back -> icc dev = icc back ->
  disjoint dev 0 0 (iw dev) (ih dev) host 0 0 (iw dev) (ih dev) ->
  disjoint back 0 0 (iw back) (ih back) dev 0 0 (iw back) (ih back) ->
  exists m1 m2, ConvertToOpenCL m host dev = Ok m1 /\ ConvertFromOpenCL m1 dev back = Ok m2 /\
    forall i j c, inside (iw host) (ih host) (icc host) i j c -> pixel m2 back i j c = pixel m host i j c.
Proof.
  intros W1 Wd Wb U1 Ud Ub E1 E2 E3 F1 F2 F3 D1 D2.
  destruct (C140_conversion_partial m host dev W1 Wd E1 E2 E3 U1 Ud D1) as [(m1 & H1 & V1 & L1 & _) _].
  destruct (C140_conversion_partial m1 dev back) as [_ (m2 & H2 & V2 & _)]; auto; try (apply (wf_same_len m); assumption).
  exists m1, m2. split; [exact H1|]. split; [exact H2|]. intros i j c Hi.
  specialize (V2 i j c). rewrite !Z.add_0_l in V2. rewrite V2 by (rewrite <- F1, <- F2, <- F3, <- E1, <- E2, <- E3; exact Hi).
  specialize (V1 i j c). rewrite !Z.add_0_l in V1. apply V1. rewrite <- E1, <- E2, <- E3. exact Hi.
Qed.
Example C140_case : wf emem (img 1 3 2 3 9) /\ wf emem (img 2 3 2 3 9) /\ unpadded (img 1 3 2 3 9) /\
  disjoint (img 2 3 2 3 9) 0 0 3 2 (img 1 3 2 3 9) 0 0 3 2.
Proof. split; [solve_wf|]. split; [solve_wf|]. split; [reflexivity|solve_disjoint]. Qed.
Print Assumptions C140_padded_host_throws.
Print Assumptions C140_to_device_refuted.
Print Assumptions C140_from_device_refuted.
Print Assumptions C140_padded_device_shears.
Print Assumptions C140_padded_device_overflows.
Print Assumptions C140_conversion_partial.
Print Assumptions C140_round_trip_partial.

(** ** C141: ConvertToGrayScale of a gray image, ConvertToRgb of an RGB image *)
Definition cl_convert : Type := cldevice -> option Z -> list nat -> mem -> image -> Z -> Z -> image -> Z -> Z -> Z -> Z -> res mem (mem * image).
Definition same_colour_conversions : list (cl_convert * Z) := [(cl_ConvertToGrayScale, 1); (cl_ConvertToRgb, 3)].
(** The region is copied, the rest of the output stays. *)
Definition C141_claim : Prop := forall F cc d m inp xi yi out xo yo w h b, In (F, cc) same_colour_conversions -> cl_ok d ->
  area m inp xi yi w h -> area m out xo yo w h -> icc inp = cc -> icc out = cc -> ity inp = ity out -> len m b = 0 ->
  disjoint out xo yo w h inp xi yi w h ->
  device_run (cl_roomy d) m (fun s => F d (Some b) s m inp xi yi out xo yo w h)
    (fun r => snd r = out /\ writes (@Ok mem mem (fst r)) m out xo yo w h (fun i j c => pixel m inp (xi + i) (yi + j) c)).
Lemma convert_is_copy F cc d fresh m inp xi yi out xo yo w h s : In (F, cc) same_colour_conversions ->
  area m inp xi yi w h -> area m out xo yo w h -> icc inp = cc -> icc out = cc ->
  F d fresh s m inp xi yi out xo yo w h = cl_CopyImage fresh m inp out.
Proof.
  intros HF [W1 R1] [Wo Ro] C1 Co. unfold same_colour_conversions in HF. cbn [In] in HF.
  destruct HF as [E|[E|[]]]; injection E as <- <-.
  - unfold cl_ConvertToGrayScale, valid_roi2. rewrite !(valid_roi_ok m), is_gray_true by assumption. cbn [andb].
    rewrite C1. reflexivity.
  - unfold cl_ConvertToRgb, valid_roi2, is_rgb. rewrite !(valid_roi_ok m) by assumption. cbn [andb]. rewrite C1, Co. reflexivity.
Qed.
(** Images of different sizes are refused although both regions are valid. *)
Theorem C141_other_size_throws F cc d fresh m inp xi yi out xo yo w h s : In (F, cc) same_colour_conversions ->
  area m inp xi yi w h -> area m out xo yo w h -> icc inp = cc -> icc out = cc -> iw inp <> iw out \/ ih inp <> ih out ->
  F d fresh s m inp xi yi out xo yo w h = Throw m.
Proof.
  intros HF A1 Ao C1 Co Hs. rewrite (convert_is_copy F cc) by assumption. unfold cl_CopyImage.
  assert (E : valid_pair inp out = false); [|rewrite E; reflexivity].
  unfold valid_pair. destruct (Z.eqb_spec (iw inp) (iw out)), (Z.eqb_spec (ih inp) (ih out)); cbn [negb orb]; rewrite ?orb_true_r; try reflexivity.
  destruct Hs; contradiction.
Qed.
(** Otherwise the output becomes a copy of the whole input, in a new buffer. *)
Theorem C141_whole_image F cc d m inp xi yi out xo yo w h b s : In (F, cc) same_colour_conversions ->
  area m inp xi yi w h -> area m out xo yo w h -> icc inp = cc -> icc out = cc -> iw inp = iw out -> ih inp = ih out ->
  ity inp = ity out -> b <> fst (ibase inp) -> snd (ibase inp) = 0 ->
  exists M new, F d (Some b) s m inp xi yi out xo yo w h = Ok (M, new) /\
    idata new = Some (b, 0) /\ iw new = iw inp /\ ih new = ih inp /\ icc new = icc inp /\ irs new = irs inp /\
    (forall x y c, 0 <= x < iw inp -> 0 <= y < ih inp -> 0 <= c < icc inp -> pixel M new x y c = pixel m inp x y c) /\
    (forall p, fst p <> b -> get M p = get m p).
Proof.
  intros HF A1 Ao C1 Co Ew Eh Et Hb H0. rewrite (convert_is_copy F cc) by assumption.
  destruct A1 as [W1 _]. destruct Ao as [Wo _].
  set (n := ih inp * irs inp). set (m1 := with_block m b (repeat 0 (Z.to_nat n))).
  pose proof (wf_rs_pos _ _ W1) as Hrs. pose proof (wf_hi _ _ W1) as Hhi. pose proof (wf_h _ _ W1) as Hh. pose proof (wf_rs _ _ W1) as Hrs2.
  assert (Hn : 0 <= n) by (unfold n; nia).
  assert (Hl1 : len m1 b = n).
  { unfold m1, with_block, len. rewrite Z.eqb_refl. cbn [blen]. rewrite repeat_length. lia. }
  assert (Hl2 : len m1 (fst (ibase inp)) = len m (fst (ibase inp))).
  { unfold m1, with_block, len. destruct (Z.eqb_spec (fst (ibase inp)) b); [congruence|reflexivity]. }
  assert (Hg : forall p, fst p <> b -> get m1 p = get m p).
  { intros p Hp. unfold m1, with_block, get. destruct (Z.eqb_spec (fst p) b); [contradiction|reflexivity]. }
  assert (Eb : ibase inp = (fst (ibase inp), 0)) by (rewrite <- H0; destruct (ibase inp); reflexivity).
  destruct (@ContainerProofs.memcpy_blocks mem m1 b (fst (ibase inp)) n) as (M & EM & _ & V & Fr); [exact Hb|exact Hn|lia|unfold n; lia|].
  exists M, (mkImage (iw inp) (ih inp) (icc inp) (ial inp) (irs inp) (Some (b, 0)) (ity inp)).
  split; [|split; [reflexivity|]; split; [reflexivity|]; split; [reflexivity|]; split; [reflexivity|]; split; [reflexivity|]; split].
  - unfold cl_CopyImage.
    assert (Ev : valid_pair inp out = true).
    { unfold valid_pair. rewrite !(wf_not_empty m), !(color_ok m), Ew, Eh, !Z.eqb_refl by assumption. reflexivity. }
    rewrite Ev, Et, Z.eqb_refl. cbn [negb]. fold n. fold m1. rewrite (dataptr_ibase m) by assumption. rewrite Eb, EM. reflexivity.
  - intros x y c Hx Hy Hc. pose proof (wf_cc_pos _ _ W1).
    assert (Hxc : 0 <= x * icc inp) by (apply Z.mul_nonneg_nonneg; lia).
    assert (Hx1 : x * icc inp + c < irs inp) by nia.
    assert (Hyc : 0 <= y * irs inp) by (apply Z.mul_nonneg_nonneg; lia).
    assert (Hy1 : y * irs inp + irs inp <= ih inp * irs inp) by nia.
    unfold pixel, px. cbn [ibase idata irs icc fst snd]. rewrite H0.
    rewrite (V (0 + y * irs inp + x * icc inp + c)) by (unfold n; lia). apply Hg. cbn [fst]. congruence.
  - intros p Hp. rewrite Fr by exact Hp. apply Hg, Hp.
Qed.
Theorem C141_region_refuted : ~ C141_claim.
Proof.
  intros H. specialize (H cl_ConvertToGrayScale 1 cl256 emem8 (img 1 5 4 1 8) 1 1 (img 2 5 4 1 8) 0 0 1 1 9 (or_introl eq_refl) cl256_ok).
  destruct H as [(n & Hr & K & HK)|[Hr _]]; try solve_area; try reflexivity; try solve_disjoint.
  - destruct (C141_whole_image cl_ConvertToGrayScale 1 cl256 emem8 (img 1 5 4 1 8) 1 1 (img 2 5 4 1 8) 0 0 1 1 9 [] (or_introl eq_refl))
      as (M & new & E & Ed & _); try solve_area; try reflexivity; try discriminate.
    destruct (Hr []) as [E'|(r & E' & Q & _)]; rewrite E in E'; [discriminate|]. injection E' as <-. cbn [snd] in Q. subst new. discriminate.
  - apply Hr, cl256_roomy.
Qed.
(** Right for whole images of one size. *)
Theorem C141_conversion_partial F cc d m inp out b s : In (F, cc) same_colour_conversions ->
  wf m inp -> wf m out -> icc inp = cc -> icc out = cc -> iw inp = iw out -> ih inp = ih out ->
  ity inp = ity out -> b <> fst (ibase inp) -> snd (ibase inp) = 0 ->
  exists M new, F d (Some b) s m inp 0 0 out 0 0 (iw inp) (ih inp) = Ok (M, new) /\
    iw new = iw out /\ ih new = ih out /\ icc new = icc out /\
    (forall x y c, 0 <= x < iw out -> 0 <= y < ih out -> 0 <= c < icc out -> pixel M new x y c = pixel m inp x y c) /\
    (forall p, fst p <> b -> get M p = get m p).
Proof.
  intros HF W1 Wo C1 Co Ew Eh Et Hb H0.
  assert (R1 : roi_in inp 0 0 (iw inp) (ih inp)) by (pose proof (wf_w _ _ W1); pose proof (wf_h _ _ W1); constructor; lia).
  assert (Ro : roi_in out 0 0 (iw inp) (ih inp)) by (pose proof (wf_w _ _ W1); pose proof (wf_h _ _ W1); constructor; lia).
  destruct (C141_whole_image F cc d m inp 0 0 out 0 0 (iw inp) (ih inp) b s) as (M & new & E & _ & N1 & N2 & N3 & _ & V & F1);
    auto; try (split; assumption).
  exists M, new. split; [exact E|]. rewrite N1, N2, N3, <- Ew, <- Eh. split; [reflexivity|]. split; [reflexivity|]. split; [congruence|].
  split; [|exact F1]. intros x y c Hx Hy Hc. apply V; try assumption. congruence.
Qed.
Example C141_case : wf emem8 (img 1 5 4 3 16) /\ wf emem8 (img 2 5 4 3 15) /\ snd (ibase (img 1 5 4 3 16)) = 0 /\ 9 <> fst (ibase (img 1 5 4 3 16)) /\
  area emem8 (img 1 5 4 3 16) 1 1 2 2 /\ area emem8 (img 3 7 7 3 21) 0 0 2 2.
Proof. split; [solve_wf|]. split; [solve_wf|]. split; [reflexivity|]. split; [discriminate|]. split; solve_area. Qed.
Print Assumptions C141_other_size_throws.
Print Assumptions C141_whole_image.
Print Assumptions C141_region_refuted.
Print Assumptions C141_conversion_partial.
