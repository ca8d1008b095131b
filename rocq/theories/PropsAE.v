(** Properties C172 to C174: complex data on a CUDA device (cuda_fft.cu). *)
From Coq Require Import ZArith List Bool Lia Permutation.
From Verif Require Import Base Image Spec BaseProofs ImgFun ImgLemmas ImgProofs SafeProofs PropsA.
From Verif Require Import Cuda CudaProofs CudaRuns CudaSums PropsU CudaFft.
Import ListNotations.
Open Scope Z_scope.

Ltac Zify.zify_post_hook ::= idtac.

(** ** Specification *)
(** An array of w x h complex numbers lies at [p]: fewer than 2^32 of them, inside a block. *)
Record carray (m : mem) (p : ptr) (w h : Z) : Prop := mkCarray {
  ca_w : 0 < w; ca_h : 0 < h; ca_n : w * h < W32;
  ca_lo : 0 <= snd p; ca_hi : snd p + 2 * (w * h) <= len m (fst p)
}.
(** Real and imaginary part of element (x, y). *)
Definition real_part (m : mem) (p : ptr) (w x y : Z) : Z := get m (fst p, snd p + 2 * (y * w + x)).
Definition imag_part (m : mem) (p : ptr) (w x y : Z) : Z := get m (fst p, snd p + 2 * (y * w + x) + 1).
Definition each (w h : Z) (P : Z -> Z -> Prop) : Prop := forall x y, 0 <= x < w -> 0 <= y < h -> P x y.

(** ** Kernels with constant stores *)
Lemma elem_id_ok w h x y : 0 < w -> w * h < W32 -> 0 <= x < w -> 0 <= y < h ->
  elem_id w x y = y * w + x /\ 0 <= y * w + x < w * h.
Proof.
  intros Hw Hn Hx Hy. assert (0 <= y * w + x < w * h) by nia. unfold elem_id.
  rewrite (u32_small (y * w)) by nia. rewrite u32_small by lia. auto.
Qed.
Lemma elem_inj w x y x' y' : 0 < w -> 0 <= x < w -> 0 <= x' < w -> y * w + x = y' * w + x' -> x = x' /\ y = y'.
Proof. intros. assert (y = y') by nia. subst. split; lia. Qed.

Lemma small_side w h : 0 < w -> 0 < h -> w * h < W32 -> 0 < w < W32 /\ 0 < h < W32.
Proof. nia. Qed.

Lemma bind_run {A B} fits m0 (call : list nat -> res mem A) (f : A -> B) (Q : B -> Prop) :
  device_run fits m0 call (fun a => Q (f a)) ->
  device_run fits m0 (fun s => do a <- call s; Ok (f a)) Q.
Proof.
  intros [(n & H1 & K & H2)|[H1 H2]].
  - left. exists n. split.
    + intros s. destruct (H1 s) as [->|(a & -> & Ha)]; [left; reflexivity|right]. exists (f a). auto.
    + exists K. intros s Hs E. specialize (H2 s Hs). destruct (H1 s) as [E'|(a & E' & Ha)]; [contradiction|].
      rewrite E' in E. discriminate.
  - right. split; [exact H1|]. intros s. destruct (H2 s) as (M & -> & HM). exists M. auto.
Qed.

Lemma new_block_get m b n junk p : get (new_block m b n junk) p = if fst p =? b then junk (snd p) else get m p.
Proof. unfold new_block, get. destruct (fst p =? b); reflexivity. Qed.
Lemma new_block_len m b n junk b' : len (new_block m b n junk) b' = if b' =? b then n else len m b'.
Proof. unfold new_block, len. destruct (b' =? b); reflexivity. Qed.

(** Threads that load outside the cells that are written, and store: every written cell gets
    the value its threads agree on. *)
Lemma stores_run d w h m k (Q : mem -> Prop) : device_ok d -> 0 < w < W32 -> 0 < h < W32 ->
  (forall x y, 0 <= x -> 0 <= y -> ~ (x < w /\ y < h) -> k x y = PDone) ->
  (forall x y, 0 <= x < w -> 0 <= y < h -> sound m (get m) (others w h m k x y) (k x y)) ->
  (forall M, (forall b, len M b = len m b) ->
     (forall q, (forall x y e, 0 <= x < w -> 0 <= y < h -> In e (events (get m) (k x y)) -> fst e <> q) -> get M q = get m q) ->
     (forall q v, (exists x y e, 0 <= x < w /\ 0 <= y < h /\ In e (events (get m) (k x y)) /\ fst e = q) ->
        (forall x y e, 0 <= x < w -> 0 <= y < h -> In e (events (get m) (k x y)) -> fst e = q -> forall a, snd e a = v) ->
        get M q = v) -> Q M) ->
  device_run (comfortable d w h) m (fun s => launch2D d s m w h k) Q.
Proof.
  intros Hd Hw Hh Ho Hs HQ. apply launch2D_run; auto. intros es HP.
  assert (Hin : forall e, In e es <-> exists x y, 0 <= x < w /\ 0 <= y < h /\ In e (events (get m) (k x y))).
  { intros e. rewrite <- all_events_In. split; apply Permutation_in; [exact HP|apply Permutation_sym, HP]. }
  apply HQ.
  - intros b. apply (apply_all_len es m b).
  - intros q Hq. apply apply_all_untouched. intros e He. apply Hin in He as (x & y & Hx & Hy & He). eauto.
  - intros q v (x & y & e & Hx & Hy & He & E) Hv. apply apply_const.
    + exists e. split; [apply Hin; eauto|exact E].
    + intros e' He' E'. apply Hin in He' as (x' & y' & Hx' & Hy' & He'). eauto.
Qed.

(** Cells outside the array. *)
Definition outside (p : ptr) (n : Z) (q : ptr) : Prop := ~ (fst q = fst p /\ snd p <= snd q < snd p + n).

Lemma complex_stores d w h m k p R I : device_ok d -> carray m p w h ->
  (forall x y, 0 <= x -> 0 <= y -> ~ (x < w /\ y < h) -> k x y = PDone) ->
  (forall x y, 0 <= x < w -> 0 <= y < h -> sound m (get m) (fun q => fst q = fst p) (k x y)) ->
  (forall x y, 0 <= x < w -> 0 <= y < h -> events (get m) (k x y) =
     [(re_at p (y * w + x), fun _ => R x y); (im_at p (y * w + x), fun _ => I x y)]) ->
  device_run (comfortable d w h) m (fun s => launch2D d s m w h k)
    (fun M => each w h (fun x y => real_part M p w x y = R x y /\ imag_part M p w x y = I x y) /\
              (forall q, outside p (2 * (w * h)) q -> get M q = get m q) /\ (forall b, len M b = len m b)).
Proof.
  intros Hd [Cw Ch Cn Cl Chi] Ho Hs He. destruct (small_side w h Cw Ch Cn) as [Sw Sh].
  assert (Hev : forall x y e, 0 <= x < w -> 0 <= y < h -> In e (events (get m) (k x y)) ->
     e = (re_at p (y * w + x), fun _ => R x y) \/ e = (im_at p (y * w + x), fun _ => I x y)).
  { intros x y e Hx Hy H. rewrite He in H by assumption. destruct H as [<-|[<-|[]]]; auto. }
  apply stores_run; auto.
  - intros x y Hx Hy. eapply sound_weak; [|apply Hs; assumption].
    intros q (x' & y' & Hx' & Hy' & _ & Hq). apply in_map_iff in Hq as (e & <- & H).
    apply Hev in H as [->| ->]; auto.
  - intros M HL HU HV. split; [|split; [|exact HL]].
    + intros x y Hx Hy. split; apply HV.
      * exists x, y, (re_at p (y * w + x), fun _ => R x y). rewrite He by assumption. cbn [In].
        repeat (split; [assumption|]). split; [auto|reflexivity].
      * intros x' y' e Hx' Hy' H E a. apply Hev in H as [->| ->]; auto; unfold re_at, im_at, padd in E; cbn [fst snd] in *;
          apply (f_equal snd) in E; cbn [snd] in E; [|exfalso; lia].
        destruct (elem_inj w x' y' x y) as [-> ->]; auto; lia.
      * exists x, y, (im_at p (y * w + x), fun _ => I x y). rewrite He by assumption. cbn [In].
        repeat (split; [assumption|]). split; [auto|]. unfold im_at, padd. cbn [fst]. f_equal. lia.
      * intros x' y' e Hx' Hy' H E a. apply Hev in H as [->| ->]; auto; unfold re_at, im_at, padd in E; cbn [fst snd] in *;
          apply (f_equal snd) in E; cbn [snd] in E; [exfalso; lia|].
        destruct (elem_inj w x' y' x y) as [-> ->]; auto; lia.
    + intros q Hq. apply HU. intros x y e Hx Hy H E. apply Hq. rewrite <- E.
      destruct (elem_id_ok w h x y) as [_ Hb]; auto.
      apply Hev in H as [->| ->]; auto; unfold re_at, im_at, padd; cbn [fst snd]; lia.
Qed.

Lemma carray_inb m p w h x y : carray m p w h -> 0 <= x < w -> 0 <= y < h ->
  inb m (re_at p (y * w + x)) = true /\ inb m (im_at p (y * w + x)) = true.
Proof.
  intros [Cw Ch Cn Cl Chi] Hx Hy. destruct (elem_id_ok w h x y) as [_ Hb]; auto.
  split; apply inb_iff; unfold re_at, im_at, padd; cbn [fst snd]; lia.
Qed.

(** ** C174: products *)
(** [out] holds the products of the elements; nothing else has changed. *)
Definition products (F : fops) (m M : mem) (p1 p2 po : ptr) (w h : Z) : Prop :=
  each w h (fun x y =>
    real_part M po w x y = f_re F (real_part m p1 w x y) (imag_part m p1 w x y) (real_part m p2 w x y) (imag_part m p2 w x y) /\
    imag_part M po w x y = f_im F (real_part m p1 w x y) (imag_part m p1 w x y) (real_part m p2 w x y) (imag_part m p2 w x y)) /\
  (forall q, outside po (2 * (w * h)) q -> get M q = get m q) /\ (forall b, len M b = len m b).

(** The executor has the size of the data, the result is an array of its own. *)
Theorem C174_products_partial F d m w h p1 p2 po : device_ok d ->
  carray m p1 w h -> carray m p2 w h -> carray m po w h -> fst po <> fst p1 -> fst po <> fst p2 ->
  device_run (comfortable d w h) m
    (fun s => cmultiply F d s m w h (mkCC (Some p1) w h) (mkCC (Some p2) w h) (mkCC (Some po) w h))
    (fun M => products F m M p1 p2 po w h).
Proof.
  intros Hd C1 C2 Co D1 D2. pose proof C1 as [Cw Ch Cn _ _].
  apply (device_run_ext _ _ (fun s => launch2D d s m w h (complexMultiplicationKernel F p1 p2 po w h))).
  { intros s. unfold cmultiply, equal_size. cbn [ccw cch ccp]. rewrite !Z.eqb_refl.
    destruct (Z.eqb_spec w 0); [lia|]. destruct (Z.eqb_spec h 0); [lia|]. reflexivity. }
  assert (Ek : forall x y, 0 <= x < w -> 0 <= y < h -> complexMultiplicationKernel F p1 p2 po w h x y =
    let id := y * w + x in
     PLoad (re_at p1 id) (fun a => PLoad (re_at p2 id) (fun c =>
     PLoad (im_at p1 id) (fun b => PLoad (im_at p2 id) (fun d =>
     PStore (re_at po id) (f_re F a b c d)
    (PLoad (re_at p1 id) (fun a => PLoad (im_at p2 id) (fun d =>
     PLoad (im_at p1 id) (fun b => PLoad (re_at p2 id) (fun c =>
     PStore (im_at po id) (f_im F a b c d) PDone)))))))))).
  { intros x y Hx Hy. unfold complexMultiplicationKernel. rewrite in_range_in by lia.
    destruct (elem_id_ok w h x y) as [-> _]; auto. }
  apply complex_stores; auto.
  - intros x y _ _ H. apply in_range_out. exact H.
  - intros x y Hx Hy. rewrite Ek by assumption. cbv zeta.
    destruct (carray_inb m p1 w h x y C1 Hx Hy) as [A1 A2]. destruct (carray_inb m p2 w h x y C2 Hx Hy) as [B1 B2].
    destruct (carray_inb m po w h x y Co Hx Hy) as [O1 O2].
    cbn [sound]. unfold re_at, im_at, padd in *. cbn [fst snd].
    repeat (split; [assumption || (intros E; congruence) || (intros [E|E]; congruence)|]). exact Logic.I.
  - intros x y Hx Hy. rewrite Ek by assumption. cbv zeta. cbn [events]. unfold real_part, imag_part, re_at, im_at, padd.
    rewrite !Z.add_assoc. reflexivity.
Qed.
(** A case: two arrays of 3 x 2 elements, a third one for the result; a device that uses one
    thread per block.  Its arithmetic is that of the integers. *)
Definition zops : fops := mkFops (fun v => v) (fun a b c d => a * c - b * d) (fun a b c d => a * d + b * c) (fun v n => v / n mod 256).
Definition dev1 : device := mkDevice 1 1 (mkDim3 1 1 1) (mkDim3 1000 1000 1) false.
Lemma dev1_ok : device_ok dev1.
Proof. split; cbn; unfold dim_pos; cbn; lia. Qed.
Example C174_case : device_run (comfortable gpu 3 2) emem
    (fun s => cmultiply zops gpu s emem 3 2 (mkCC (Some (1, 0)) 3 2) (mkCC (Some (2, 0)) 3 2) (mkCC (Some (3, 0)) 3 2))
    (fun M => products zops emem M (1, 0) (2, 0) (3, 0) 3 2) /\ comfortable gpu 3 2.
Proof.
  split; [|apply gpu_comfortable; lia].
  apply C174_products_partial; try apply gpu_ok; try (split; cbn; pose proof W32_val; lia); cbn; lia.
Qed.
Example C174_case_run : match cmultiply zops dev1 (repeat 0%nat 40 ++ repeat 1%nat 40) emem 2 1
    (mkCC (Some (1, 0)) 2 1) (mkCC (Some (2, 0)) 2 1) (mkCC (Some (3, 0)) 2 1) with
  | Ok M => (get M (3, 0), get M (3, 1), get M (3, 2), get M (3, 3)) = (11 * 22 - 48 * 59, 11 * 59 + 48 * 22, 85 * 96 - 122 * 133, 85 * 133 + 122 * 96)
  | _ => False end.
Proof. vm_compute. reflexivity. Qed.

(** The size of the executor is not compared with the size of the data. *)
Definition C174_size_claim : Prop := forall F d m ew eh w h p1 p2 po, device_ok d -> comfortable d ew eh ->
  carray m p1 w h -> carray m p2 w h -> carray m po w h -> fst po <> fst p1 -> fst po <> fst p2 ->
  forall s, match cmultiply F d s m ew eh (mkCC (Some p1) w h) (mkCC (Some p2) w h) (mkCC (Some po) w h) with
            | Ok M => products F m M p1 p2 po w h
            | Throw M => same_mem m M
            | Timeout => True
            | UB => False
            end.
Definition m4 : mem := fun b => mkBlock 4 (fun o => o + 1).
Lemma m4_carray b : carray m4 (b, 0) 2 1.
Proof. split; cbn; pose proof W32_val; lia. Qed.
Lemma dev1_comfortable w : 0 < w < 500 -> comfortable dev1 w 1.
Proof. intros H. unfold comfortable, roomy. cbn. pose proof W32_val. lia. Qed.
(** A smaller executor multiplies a part of the elements. *)
Theorem C174_small_executor_refuted : ~ C174_size_claim.
Proof.
  intros H. specialize (H zops dev1 m4 1 1 2 1 (1, 0) (2, 0) (3, 0) dev1_ok (dev1_comfortable 1 ltac:(lia))
    (m4_carray 1) (m4_carray 2) (m4_carray 3) ltac:(cbn; lia) ltac:(cbn; lia) (repeat 0%nat 40)).
  assert (E : match cmultiply zops dev1 (repeat 0%nat 40) m4 1 1 (mkCC (Some (1, 0)) 2 1) (mkCC (Some (2, 0)) 2 1) (mkCC (Some (3, 0)) 2 1) with
    | Ok M => (get M (3, 2) =? 3) | _ => false end = true) by (vm_compute; reflexivity).
  destruct (cmultiply _ _ _ _ _ _ _ _ _) as [M| | |]; try discriminate. apply Z.eqb_eq in E.
  destruct H as [H _]. destruct (H 1 0 ltac:(lia) ltac:(lia)) as [H1 _].
  unfold real_part at 1 in H1. cbn [fst snd] in H1. change (0 + 2 * (0 * 2 + 1)) with 2 in H1. rewrite E in H1.
  vm_compute in H1. discriminate.
Qed.
(** A larger executor reads and writes past the arrays. *)
Theorem C174_large_executor_refuted : ~ C174_size_claim.
Proof.
  intros H. specialize (H zops dev1 m4 3 1 2 1 (1, 0) (2, 0) (3, 0) dev1_ok (dev1_comfortable 3 ltac:(lia))
    (m4_carray 1) (m4_carray 2) (m4_carray 3) ltac:(cbn; lia) ltac:(cbn; lia) [2%nat]).
  assert (E : cmultiply zops dev1 [2%nat] m4 3 1 (mkCC (Some (1, 0)) 2 1) (mkCC (Some (2, 0)) 2 1) (mkCC (Some (3, 0)) 2 1) = UB)
    by (vm_compute; reflexivity).
  revert E H. generalize (cmultiply zops dev1 [2%nat] m4 3 1 (mkCC (Some (1, 0)) 2 1) (mkCC (Some (2, 0)) 2 1) (mkCC (Some (3, 0)) 2 1)).
  intros r -> H. exact H.
Qed.

(** In place, as Gaussian calls it: the imaginary part is computed from the new real part. *)
Definition C174_in_place_claim : Prop := forall F d m w h p1 p2, device_ok d -> comfortable d w h ->
  carray m p1 w h -> carray m p2 w h -> fst p1 <> fst p2 ->
  forall s M, cmultiply F d s m w h (mkCC (Some p1) w h) (mkCC (Some p2) w h) (mkCC (Some p1) w h) = Ok M ->
  products F m M p1 p2 p1 w h.
Theorem C174_in_place_refuted : ~ C174_in_place_claim.
Proof.
  intros H. assert (C : forall b, carray m4 (b, 0) 1 1) by (intros b; split; cbn; pose proof W32_val; lia).
  specialize (H zops dev1 m4 1 1 (1, 0) (2, 0) dev1_ok (dev1_comfortable 1 ltac:(lia)) (C 1) (C 2) ltac:(cbn; lia) (repeat 0%nat 40)).
  assert (E : match cmultiply zops dev1 (repeat 0%nat 40) m4 1 1 (mkCC (Some (1, 0)) 1 1) (mkCC (Some (2, 0)) 1 1) (mkCC (Some (1, 0)) 1 1) with
    | Ok M => (get M (1, 1) =? -4) | _ => false end = true) by (vm_compute; reflexivity).
  destruct (cmultiply _ _ _ _ _ _ _ _ _) as [M| | |]; try discriminate. apply Z.eqb_eq in E.
  destruct (H M eq_refl) as [HE _]. destruct (HE 0 0 ltac:(lia) ltac:(lia)) as [_ H1].
  unfold imag_part at 1 in H1. cbn [fst snd] in H1. change (0 + 2 * (0 * 1 + 0) + 1) with 1 in H1. rewrite E in H1.
  vm_compute in H1. discriminate.
Qed.

(** Data of different sizes, and data without elements, are refused. *)
Theorem C174_refusals F d s m ew eh c1 c2 out :
  ~ (ccw c1 = ccw c2 /\ cch c1 = cch c2) \/ ~ (ccw c1 = ccw out /\ cch c1 = cch out) \/ ccw c1 = 0 \/ cch c2 = 0 ->
  cmultiply F d s m ew eh c1 c2 out = Throw m.
Proof.
  intros H. unfold cmultiply, equal_size.
  destruct (Z.eqb_spec (ccw c1) (ccw c2)), (Z.eqb_spec (cch c1) (cch c2)), (Z.eqb_spec (ccw c1) (ccw out)),
    (Z.eqb_spec (cch c1) (cch out)), (Z.eqb_spec (ccw c1) 0), (Z.eqb_spec (cch c2) 0); cbn [andb orb negb]; try reflexivity.
  exfalso. tauto.
Qed.
Example C174_refusals_case : cmultiply zops dev1 [] m4 2 1 (mkCC (Some (1, 0)) 2 1) (mkCC (Some (2, 0)) 1 2) (mkCC (Some (3, 0)) 2 1) = Throw m4.
Proof. apply C174_refusals. cbn. lia. Qed.
Print Assumptions C174_products_partial.
Print Assumptions C174_small_executor_refuted.
Print Assumptions C174_large_executor_refuted.
Print Assumptions C174_in_place_refuted.
Print Assumptions C174_refusals.

(** ** C172: complex data from an image or from an array of floats *)
Lemma dataptr_ibase im : idata im <> None -> dataptr im = ibase im.
Proof. unfold dataptr, ibase. destruct (idata im); [reflexivity|congruence]. Qed.

(** The block of the object before the call. *)
Definition old_block (c : ccomplex) (b : Z) : Prop := match ccp c with Some p => b = fst p | None => False end.
Lemma cclean_get m c q : ~ old_block c (fst q) -> get (cclean m c) q = get m q.
Proof.
  unfold cclean, old_block, drop_block. destruct (ccp c); [|auto]. intros H. rewrite new_block_get.
  destruct (Z.eqb_spec (fst q) (fst p)); [contradiction|reflexivity].
Qed.
Lemma cclean_len m c b : ~ old_block c b -> len (cclean m c) b = len m b.
Proof.
  unfold cclean, old_block, drop_block. destruct (ccp c); [|auto]. intros H. rewrite new_block_len.
  destruct (Z.eqb_spec b (fst p)); [contradiction|reflexivity].
Qed.

(** What the object holds afterwards: real parts [val x y], imaginary parts 0, in a block of
    its own; the other blocks, except the one it had before, are unchanged. *)
Definition took (m : mem) (c : ccomplex) (b w h : Z) (val : Z -> Z -> Z) (r : mem * ccomplex) : Prop :=
  snd r = mkCC (Some (b, 0)) w h /\ carray (fst r) (b, 0) w h /\
  each w h (fun x y => real_part (fst r) (b, 0) w x y = val x y /\ imag_part (fst r) (b, 0) w x y = 0) /\
  (forall q, fst q <> b -> ~ old_block c (fst q) -> get (fst r) q = get m q) /\
  (forall b', b' <> b -> ~ old_block c b' -> len (fst r) b' = len m b').

Lemma set_run F d m c im b junk : device_ok d -> wf m im -> icc im = 1 -> b <> fst (ibase im) -> ~ old_block c (fst (ibase im)) ->
  device_run (comfortable d (iw im) (ih im)) (new_block (cclean m c) b (2 * (iw im * ih im)) junk)
    (fun s => cset_image F d (Some b) junk s m c im)
    (took m c b (iw im) (ih im) (fun x y => of_byte F (get m (padd (ibase im) (y * iw im + x))))).
Proof.
  intros Hd Hw Hc Hb Ho. pose proof Hw as [Wd Ww Wh _ Wr Ws Wl Whi]. rewrite Hc, Z.mul_1_r in Wr.
  set (w := iw im) in *. set (h := ih im) in *. assert (Hn : 0 < w * h <= h * irs im) by nia.
  set (m1 := new_block (cclean m c) b (2 * (w * h)) junk).
  assert (Cb : carray m1 (b, 0) w h).
  { split; try lia; cbn [fst snd]; [lia|]. unfold m1. rewrite new_block_len, Z.eqb_refl. lia. }
  apply (device_run_ext _ _ (fun s => do m' <- launch2D d s m1 w h (copyFromImageKernel F (ibase im) (b, 0) w h);
                                      Ok ((fun M => (M, mkCC (Some (b, 0)) w h)) m'))).
  { intros s. unfold cset_image. rewrite dataptr_ibase by assumption. destruct (idata im) eqn:Ed; [|contradiction].
    rewrite Hc, Z.eqb_refl. cbn [orb negb]. fold w h. rewrite u32_small by lia. reflexivity. }
  apply bind_run. cbv beta.
  assert (Ek : forall x y, 0 <= x < w -> 0 <= y < h -> copyFromImageKernel F (ibase im) (b, 0) w h x y =
     PLoad (padd (ibase im) (y * w + x)) (fun v =>
     PStore (re_at (b, 0) (y * w + x)) (of_byte F v) (PStore (im_at (b, 0) (y * w + x)) 0 PDone))).
  { intros x y Hx Hy. unfold copyFromImageKernel. rewrite in_range_in by lia.
    destruct (elem_id_ok w h x y) as [-> _]; auto; lia. }
  assert (Hold : forall q, fst q = fst (ibase im) -> get m1 q = get m q /\ len m1 (fst q) = len m (fst q)).
  { intros q Hq. unfold m1. rewrite new_block_get, new_block_len. destruct (Z.eqb_spec (fst q) b); [congruence|].
    rewrite cclean_get, cclean_len by congruence. auto. }
  eapply device_run_weak; [|apply (complex_stores d w h m1 _ (b, 0)
    (fun x y => of_byte F (get m (padd (ibase im) (y * w + x)))) (fun _ _ => 0)); auto].
  - intros M (H1 & H2 & H3). unfold took. cbn [fst snd]. split; [reflexivity|]. split.
    { destruct Cb. split; auto. rewrite H3. assumption. }
    split; [exact H1|]. split.
    + intros q Hq Hq'. rewrite H2 by (intros [E _]; cbn [fst] in E; congruence).
      unfold m1. rewrite new_block_get. destruct (Z.eqb_spec (fst q) b); [congruence|]. apply cclean_get, Hq'.
    + intros b' Hb' Hq'. rewrite H3. unfold m1. rewrite new_block_len. destruct (Z.eqb_spec b' b); [congruence|].
      apply cclean_len, Hq'.
  - intros x y _ _ H. apply in_range_out. exact H.
  - intros x y Hx Hy. rewrite Ek by assumption. cbn [sound]. destruct (carray_inb m1 (b, 0) w h x y Cb Hx Hy) as [O1 O2].
    destruct (elem_id_ok w h x y) as [_ Hid]; auto; try lia.
    split. { apply inb_iff. destruct (Hold (padd (ibase im) (y * w + x)) eq_refl) as [_ ->]. unfold padd. cbn [fst snd]. lia. }
    split; [unfold padd; cbn [fst]; congruence|]. auto.
  - intros x y Hx Hy. rewrite Ek by assumption. cbn [events].
    destruct (Hold (padd (ibase im) (y * w + x)) eq_refl) as [-> _]. reflexivity.
Qed.

Definition C172_claim : Prop := forall F d m c im b junk,
  device_ok d -> wf m im -> icc im = 1 -> b <> fst (ibase im) -> ~ old_block c (fst (ibase im)) ->
  device_run (comfortable d (iw im) (ih im)) (new_block (cclean m c) b (2 * (iw im * ih im)) junk)
    (fun s => cset_image F d (Some b) junk s m c im)
    (took m c b (iw im) (ih im) (fun x y => of_byte F (pixel m im x y 0))).
(** Rows without padding, or one row. *)
Theorem C172_from_image_partial F d m c im b junk :
  device_ok d -> wf m im -> icc im = 1 -> b <> fst (ibase im) -> ~ old_block c (fst (ibase im)) ->
  irs im = iw im \/ ih im = 1 ->
  device_run (comfortable d (iw im) (ih im)) (new_block (cclean m c) b (2 * (iw im * ih im)) junk)
    (fun s => cset_image F d (Some b) junk s m c im)
    (took m c b (iw im) (ih im) (fun x y => of_byte F (pixel m im x y 0))).
Proof.
  intros Hd Hw Hc Hb Ho Hr. eapply device_run_weak; [|apply set_run; auto].
  intros r (H1 & H2 & H3 & H4). split; [exact H1|]. split; [exact H2|]. split; [|exact H4].
  intros x y Hx Hy. destruct (H3 x y Hx Hy) as [-> ->]. split; [|reflexivity]. unfold pixel, px, padd. do 3 f_equal.
  rewrite Hc. destruct Hr as [->|Hr]; [lia|]. replace y with 0 by lia. lia.
Qed.
(** Any rows: no access outside the image or the array, but what is taken are the first
    width * height bytes of the image. *)
Theorem C172_any_rows_partial F d m c im b junk :
  device_ok d -> wf m im -> icc im = 1 -> b <> fst (ibase im) -> ~ old_block c (fst (ibase im)) ->
  device_run (comfortable d (iw im) (ih im)) (new_block (cclean m c) b (2 * (iw im * ih im)) junk)
    (fun s => cset_image F d (Some b) junk s m c im)
    (took m c b (iw im) (ih im) (fun x y => of_byte F (get m (fst (ibase im), snd (ibase im) + (y * iw im + x))))).
Proof. apply set_run. Qed.
Definition cnone : ccomplex := mkCC None 0 0.
Example C172_case : device_run (comfortable gpu 5 4) (new_block emem 9 40 (fun _ => 7))
    (fun s => cset_image zops gpu (Some 9) (fun _ => 7) s emem cnone (img 1 5 4 1 5))
    (took emem cnone 9 5 4 (fun x y => pixel emem (img 1 5 4 1 5) x y 0)) /\ comfortable gpu 5 4.
Proof.
  split; [|apply gpu_comfortable; lia].
  refine (C172_from_image_partial zops gpu emem cnone (img 1 5 4 1 5) 9 (fun _ => 7) gpu_ok _ eq_refl _ _ _).
  - solve_wf.
  - cbn. lia.
  - intros [].
  - left. reflexivity.
Qed.

Lemma took_padding m c b w h val val' r x y : took m c b w h val r -> 0 <= x < w -> 0 <= y < h ->
  took m c b w h val' r -> val x y = val' x y.
Proof. intros (_ & _ & H & _) Hx Hy (_ & _ & H' & _). destruct (H x y Hx Hy) as [E _], (H' x y Hx Hy) as [E' _]. congruence. Qed.
(** 2 x 2 pixels in rows of 3 bytes: the second row starts with the padding of the first. *)
Theorem C172_padding_refuted : ~ C172_claim.
Proof.
  intros H. set (im := img 1 2 2 1 3). assert (W : wf emem im) by solve_wf.
  assert (B : 9 <> fst (ibase im)) by (cbn; lia). assert (O : ~ old_block cnone (fst (ibase im))) by (intros []).
  assert (K : comfortable gpu (iw im) (ih im)) by (apply gpu_comfortable; cbn; lia).
  specialize (H zops gpu emem cnone im 9 (fun _ => 7) gpu_ok W eq_refl B O).
  pose proof (C172_any_rows_partial zops gpu emem cnone im 9 (fun _ => 7) gpu_ok W eq_refl B O) as H'.
  destruct H as [(n & R1 & K1 & R2)|[NK _]]; [|contradiction].
  destruct H' as [(n' & R1' & K1' & R2')|[NK _]]; [|contradiction].
  set (s := flat_map (fun i => repeat i K1) (seq 0 n)).
  assert (Hs : forall i, (i < n)%nat -> (K1 <= count_occ Nat.eq_dec s i)%nat).
  { intros i Hi. unfold s. assert (G : forall a l, (a <= i < a + l)%nat ->
      (K1 <= count_occ Nat.eq_dec (flat_map (fun i => repeat i K1) (seq a l)) i)%nat).
    { intros a l. revert a. induction l as [|l IH]; intros a Ha; [lia|]. cbn [seq flat_map].
      rewrite count_occ_app. destruct (Nat.eq_dec a i) as [->|Hne].
      - rewrite count_occ_repeat_eq by reflexivity. lia.
      - specialize (IH (S a)). lia. }
    apply G. lia. }
  specialize (R2 s Hs). destruct (R1 s) as [E|(r & E & T)]; [contradiction|].
  destruct (R1' s) as [E'|(r' & E' & T')]; [rewrite E in E'; discriminate|].
  rewrite E in E'. injection E' as <-.
  pose proof (took_padding _ _ _ _ _ _ _ _ 0 1 T ltac:(cbn; lia) ltac:(cbn; lia) T') as P. vm_compute in P. discriminate.
Qed.

(** From an array of floats: the size must be that of the object. *)
Theorem C172_from_array d m c p inp n w h : device_ok d -> c = mkCC (Some p) w h -> carray m p w h -> n = w * h ->
  0 <= snd inp -> snd inp + n <= len m (fst inp) -> fst inp <> fst p ->
  device_run (comfortable d w h) m (fun s => cset_array d s m c inp n)
    (fun M => each w h (fun x y => real_part M p w x y = get m (fst inp, snd inp + (y * w + x)) /\ imag_part M p w x y = 0) /\
              (forall q, outside p (2 * (w * h)) q -> get M q = get m q) /\ (forall b, len M b = len m b)).
Proof.
  intros Hd -> Cp -> Hl Hh Hb. pose proof Cp as [Cw Ch Cn _ _].
  apply (device_run_ext _ _ (fun s => launch2D d s m w h (copyFromFloatKernel inp p w h))).
  { intros s. unfold cset_array. cbn [ccp ccw cch]. rewrite u32_small by nia. rewrite Z.eqb_refl.
    destruct (Z.eqb_spec (w * h) 0); [nia|]. destruct (Z.eqb_spec w 0); [lia|]. destruct (Z.eqb_spec h 0); [lia|]. reflexivity. }
  assert (Ek : forall x y, 0 <= x < w -> 0 <= y < h -> copyFromFloatKernel inp p w h x y =
     PLoad (padd inp (y * w + x)) (fun v => PStore (re_at p (y * w + x)) v (PStore (im_at p (y * w + x)) 0 PDone))).
  { intros x y Hx Hy. unfold copyFromFloatKernel. rewrite in_range_in by lia.
    destruct (elem_id_ok w h x y) as [-> _]; auto; lia. }
  apply complex_stores; auto.
  - intros x y _ _ H. apply in_range_out. exact H.
  - intros x y Hx Hy. rewrite Ek by assumption. cbn [sound]. destruct (carray_inb m p w h x y Cp Hx Hy) as [O1 O2].
    destruct (elem_id_ok w h x y) as [_ Hid]; auto; try lia.
    split. { apply inb_iff. unfold padd. cbn [fst snd]. lia. }
    split; [unfold padd; cbn [fst]; congruence|]. auto.
  - intros x y Hx Hy. rewrite Ek by assumption. reflexivity.
Qed.
Theorem C172_array_refusals d s m c inp n : n = 0 \/ ccw c = 0 \/ cch c = 0 \/ n <> u32 (ccw c * cch c) ->
  cset_array d s m c inp n = Throw m.
Proof.
  intros H. unfold cset_array.
  destruct (Z.eqb_spec n 0), (Z.eqb_spec (ccw c) 0), (Z.eqb_spec (cch c) 0), (Z.eqb_spec n (u32 (ccw c * cch c)));
    cbn [orb negb]; try reflexivity. exfalso. lia.
Qed.
Theorem C172_image_refusals F d f junk s m c im : idata im = None \/ icc im <> 1 -> cset_image F d f junk s m c im = Throw m.
Proof.
  intros H. unfold cset_image. destruct (idata im); [|reflexivity]. destruct (Z.eqb_spec (icc im) 1); [|reflexivity].
  exfalso. destruct H; [discriminate|contradiction].
Qed.
Example C172_array_case : device_run (comfortable gpu 3 2) emem (fun s => cset_array gpu s emem (mkCC (Some (2, 0)) 3 2) (1, 0) 6)
    (fun M => each 3 2 (fun x y => real_part M (2, 0) 3 x y = get emem (1, 0 + (y * 3 + x)) /\ imag_part M (2, 0) 3 x y = 0) /\
              (forall q, outside (2, 0) (2 * (3 * 2)) q -> get M q = get emem q) /\ (forall b, len M b = len emem b)) /\
  cset_array gpu [] emem (mkCC (Some (2, 0)) 3 2) (1, 0) 5 = Throw emem /\
  cset_image zops gpu (Some 9) (fun _ => 0) [] emem cnone (img 1 5 4 3 16) = Throw emem.
Proof.
  split; [|split].
  - apply (C172_from_array gpu emem _ (2, 0) (1, 0) 6 3 2); try apply gpu_ok; try reflexivity; try (cbn; lia).
    split; cbn; pose proof W32_val; lia.
  - apply C172_array_refusals. cbn. do 3 right. vm_compute. discriminate.
  - apply C172_image_refusals. right. cbn. lia.
Qed.
Print Assumptions C172_from_image_partial.
Print Assumptions C172_any_rows_partial.
Print Assumptions C172_padding_refuted.
Print Assumptions C172_from_array.
Print Assumptions C172_array_refusals.
Print Assumptions C172_image_refusals.

(** ** C173: the image of complex data *)
(** Sizes for which exchanging the halves is a permutation. *)
Definition halves (n : Z) : Prop := n = 1 \/ n mod 2 = 0.

Lemma swap_half_ok n k : halves n -> 0 <= k < n -> n < W32 -> swap_half n k = (k + n / 2) mod n /\ 0 <= swap_half n k < n.
Proof.
  intros Hn Hk Hw. unfold swap_half. pose proof W32_val.
  assert (Hh : n = 1 /\ n / 2 = 0 \/ n = 2 * (n / 2)).
  { destruct Hn as [->|Hn]; [left; split; reflexivity|right]. rewrite (Z.div_mod n 2) at 1 by lia. lia. }
  destruct Hh as [[-> ->]|Hh].
  - replace k with 0 by lia. cbn. split; [reflexivity|lia].
  - destruct (Z.ltb_spec k (n / 2)); rewrite u32_small by lia.
    + rewrite Z.mod_small by lia. lia.
    + replace (k + n / 2) with (k - n / 2 + 1 * n) by lia. rewrite Z.mod_add by lia. rewrite Z.mod_small by lia. lia.
Qed.
Lemma swap_half_inj n k k' : halves n -> 0 <= k < n -> 0 <= k' < n -> n < W32 -> swap_half n k = swap_half n k' -> k = k'.
Proof.
  intros Hn Hk Hk' Hw E. pose proof W32_val. revert E. unfold swap_half.
  assert (Hh : n = 1 \/ n = 2 * (n / 2)).
  { destruct Hn as [->|Hn]; [left; reflexivity|right]. rewrite (Z.div_mod n 2) at 1 by lia. lia. }
  destruct Hh as [->|Hh]; [lia|].
  destruct (Z.ltb_spec k (n / 2)), (Z.ltb_spec k' (n / 2)); rewrite !u32_small by lia; lia.
Qed.

(** The new image, in a block of its own, has the value of element (x, y) where the halves of
    the rows and of the columns are exchanged; the other blocks are unchanged. *)
Definition gave (F : fops) (m : mem) (p : ptr) (b w h : Z) (r : mem * option image) : Prop :=
  exists im, snd r = Some im /\ wf (fst r) im /\ iw im = w /\ ih im = h /\ icc im = 1 /\ fst (ibase im) = b /\
    each w h (fun x y => pixel (fst r) im ((x + w / 2) mod w) ((y + h / 2) mod h) 0 = to_px F (real_part m p w x y) (w * h)) /\
    (forall q, fst q <> b -> get (fst r) q = get m q) /\ (forall b', b' <> b -> len (fst r) b' = len m b').

Definition C173_claim : Prop := forall F d m p w h b junk, device_ok d -> carray m p w h -> b <> fst p ->
  device_run (comfortable d w h) (new_block m b (w * h) junk) (fun s => cget F d (Some b) junk s m (mkCC (Some p) w h))
    (gave F m p b w h).

Theorem C173_get_partial F d m p w h b junk : device_ok d -> carray m p w h -> b <> fst p -> halves w -> halves h ->
  device_run (comfortable d w h) (new_block m b (w * h) junk) (fun s => cget F d (Some b) junk s m (mkCC (Some p) w h))
    (gave F m p b w h).
Proof.
  intros Hd Cp Hb Ew Eh. pose proof Cp as [Cw Ch Cn Cl Chi]. destruct (small_side w h Cw Ch Cn) as [Sw Sh].
  set (m1 := new_block m b (w * h) junk). set (im := mkImage w h 1 1 w (Some (b, 0)) 1).
  set (k := copyToImageKernel F p (b, 0) (w * h) w h).
  apply (device_run_ext _ _ (fun s => do m' <- launch2D d s m1 w h k; Ok ((fun M => (M, Some im)) m'))).
  { intros s. unfold cget. cbn [ccp ccw cch]. rewrite u32_small by nia. reflexivity. }
  apply bind_run. cbv beta.
  assert (Ek : forall x y, 0 <= x < w -> 0 <= y < h -> k x y =
     PLoad (re_at p (y * w + x)) (fun v => PStore (padd (b, 0) (swap_half h y * w + swap_half w x)) (to_px F v (w * h)) PDone)).
  { intros x y Hx Hy. unfold k, copyToImageKernel. rewrite in_range_in by lia.
    destruct (swap_half_ok w x Ew Hx) as [_ Sx]; [lia|]. destruct (swap_half_ok h y Eh Hy) as [_ Sy]; [lia|].
    destruct (elem_id_ok w h x y) as [-> _]; auto. destruct (elem_id_ok w h (swap_half w x) (swap_half h y)) as [-> _]; auto. }
  assert (Hold : forall q, fst q = fst p -> get m1 q = get m q /\ len m1 (fst q) = len m (fst q)).
  { intros q Hq. unfold m1. rewrite new_block_get, new_block_len. destruct (Z.eqb_spec (fst q) b); [congruence|]. auto. }
  assert (Hev : forall x y e, 0 <= x < w -> 0 <= y < h -> In e (events (get m1) (k x y)) ->
     e = (padd (b, 0) (swap_half h y * w + swap_half w x), fun _ => to_px F (real_part m p w x y) (w * h))).
  { intros x y e Hx Hy H. rewrite Ek in H by assumption. cbn [events In] in H. destruct H as [<-|[]].
    destruct (Hold (re_at p (y * w + x)) eq_refl) as [-> _]. reflexivity. }
  apply stores_run; auto.
  - intros x y _ _ H. apply in_range_out. exact H.
  - intros x y Hx Hy. rewrite Ek by assumption. cbn [sound]. split; [|split; [|split; [|exact Logic.I]]].
    + destruct (elem_id_ok w h x y) as [_ Hid]; auto. apply inb_iff.
      destruct (Hold (re_at p (y * w + x)) eq_refl) as [_ ->]. unfold re_at, padd. cbn [fst snd]. lia.
    + intros (x' & y' & Hx' & Hy' & _ & Hq). apply in_map_iff in Hq as (e & E & H). apply Hev in H as ->; auto.
      apply (f_equal fst) in E. cbn [fst] in E. unfold re_at, padd in E. cbn [fst] in E. congruence.
    + destruct (swap_half_ok w x Ew Hx) as [_ Sx]; [lia|]. destruct (swap_half_ok h y Eh Hy) as [_ Sy]; [lia|].
      destruct (elem_id_ok w h (swap_half w x) (swap_half h y)) as [_ Hid]; auto.
      apply inb_iff. unfold padd, m1. cbn [fst snd]. rewrite new_block_len, Z.eqb_refl. lia.
  - intros M HL HU HV. exists im. cbn [fst snd]. split; [reflexivity|]. split.
    { split; cbn; try discriminate; try lia; auto. rewrite HL. unfold m1. rewrite new_block_len, Z.eqb_refl. lia. }
    do 4 (split; [reflexivity|]). split; [|split].
    + intros x y Hx Hy. destruct (swap_half_ok w x Ew Hx) as [<- Sx]; [lia|]. destruct (swap_half_ok h y Eh Hy) as [<- Sy]; [lia|].
      unfold pixel. apply HV.
      * exists x, y. eexists. split; [exact Hx|]. split; [exact Hy|]. rewrite Ek by assumption. cbn [events In]. split; [left; reflexivity|].
        unfold px, padd. cbn [ibase idata im irs icc fst snd]. f_equal. lia.
      * intros x' y' e Hx' Hy' H E a. apply Hev in H as ->; auto. cbn [fst snd] in *.
        destruct (swap_half_ok w x' Ew Hx') as [_ Sx']; [lia|].
        apply (f_equal snd) in E. unfold px, padd in E. cbn [ibase idata im irs icc fst snd] in E.
        destruct (elem_inj w (swap_half w x') (swap_half h y') (swap_half w x) (swap_half h y)) as [E1 E2]; auto; [lia|].
        apply swap_half_inj in E1; auto; [|lia]. apply swap_half_inj in E2; auto; [|lia]. subst x' y'. reflexivity.
    + intros q Hq. rewrite HU.
      * unfold m1. rewrite new_block_get. destruct (Z.eqb_spec (fst q) b); [contradiction|reflexivity].
      * intros x y e Hx Hy H E. apply Hev in H as ->; auto. apply Hq. rewrite <- E. reflexivity.
    + intros b' Hb'. rewrite HL. unfold m1. rewrite new_block_len. destruct (Z.eqb_spec b' b); [contradiction|reflexivity].
Qed.
Example C173_case : device_run (comfortable gpu 6 1) (new_block emem 9 (6 * 1) (fun _ => 7))
    (fun s => cget zops gpu (Some 9) (fun _ => 7) s emem (mkCC (Some (1, 4)) 6 1)) (gave zops emem (1, 4) 9 6 1) /\ comfortable gpu 6 1.
Proof.
  split; [|apply gpu_comfortable; lia]. apply C173_get_partial; try apply gpu_ok; try (cbn; lia).
  - split; cbn; pose proof W32_val; lia.
  - right. reflexivity.
  - left. reflexivity.
Qed.
(** No data, no image; no memory, no image. *)
Theorem C173_refusals F d f junk s m p w h :
  cget F d f junk s m (mkCC None w h) = Ok (m, None) /\ cget F d None junk s m (mkCC (Some p) w h) = Throw m.
Proof. split; reflexivity. Qed.

(** Three columns: the threads of the first and of the last column write the same pixel, and
    nobody writes the last pixel. *)
Definition row3 : mem := fun b => mkBlock 6 (fun o => 100 * o).
Lemma row3_carray : carray row3 (1, 0) 3 1.
Proof. split; cbn; pose proof W32_val; lia. Qed.
Definition pixels3 (s : list nat) : option (list Z) :=
  match cget (mkFops (fun v => v) (fun a _ _ _ => a) (fun a _ _ _ => a) (fun v _ => v / 100)) dev1 (Some 9) (fun _ => 77) s row3 (mkCC (Some (1, 0)) 3 1) with
  | Ok (M, Some im) => Some [pixel M im 0 0 0; pixel M im 1 0 0; pixel M im 2 0 0]
  | _ => None
  end.
Theorem C173_odd_race : pixels3 [0; 1; 2; 0; 1; 2]%nat = Some [2; 4; 77] /\ pixels3 [2; 1; 0; 2; 1; 0]%nat = Some [2; 0; 77].
Proof. split; vm_compute; reflexivity. Qed.
Theorem C173_odd_refuted : ~ C173_claim.
Proof.
  intros H. set (F := mkFops (fun v => v) (fun a _ _ _ => a) (fun a _ _ _ => a) (fun v _ => v / 100)).
  set (call := fun s => cget F dev1 (Some 9) (fun _ => 77) s row3 (mkCC (Some (1, 0)) 3 1)).
  set (s0 := [0; 1; 2; 0; 1; 2]%nat).
  assert (E : match call s0 with Ok (M, Some im) => pixel M im ((2 + 3 / 2) mod 3) ((0 + 1 / 2) mod 1) 0 =? 2 | _ => false end = true)
    by (vm_compute; reflexivity).
  destruct (H F dev1 row3 (1, 0) 3 1 9 (fun _ => 77) dev1_ok row3_carray ltac:(cbn; lia)) as [(n & R & _)|[NK _]].
  - destruct (R s0) as [R'|(r & R' & G)]; fold call in R'; change (cget F dev1 (Some 9) (fun _ => 77) s0 row3 (mkCC (Some (1, 0)) 3 1)) with (call s0) in R'; rewrite R' in E; [discriminate|].
    destruct r as [M o]. destruct G as (im & Eo & _ & _ & _ & _ & _ & G & _). cbn [fst snd] in *. subst o.
    apply Z.eqb_eq in E. rewrite (G 2 0) in E by lia. vm_compute in E. discriminate.
  - apply NK. apply dev1_comfortable. lia.
Qed.
Print Assumptions C173_get_partial.
Print Assumptions C173_refusals.
Print Assumptions C173_odd_race.
Print Assumptions C173_odd_refuted.
