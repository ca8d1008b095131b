(** Properties of the multi-threaded functions: C47 - C51. *)
From Coq Require Import ZArith List Bool Lia.
From Verif Require Import Base Image Spec BaseProofs ImgFun ImgLemmas ImgProofs ConvProofs ReduceProofs SafeProofs PropsA PropsB.
From Verif Require Import FuncPool FuncPoolProofs StripProofs TileProofs PoolReduce.
Import ListNotations.
Open Scope Z_scope.

Ltac Zify.zify_post_hook ::= Z.div_mod_to_equations.

Ltac closed_area := clear; solve_area.

(** ** C47 *)

(** Position ([a],[b]) belongs to the rectangle. *)
Definition in_strip (s : strip) (a b : Z) : Prop :=
  sx s <= a < sx s + sw s /\ sy s <= b < sy s + sh s.

Theorem C47_region_splitter x y w h n :
  0 < w -> 0 < h -> 0 < n -> 0 <= x -> 0 <= y -> x + w < W32 -> y + h < W32 ->
  exists l, @area_calculate mem x y w h n = Ok l /\
    (1 <= length l)%nat /\ Z.of_nat (length l) <= n /\
    (forall s, In s l -> 0 < sw s /\ 0 < sh s) /\
    (forall s a b, In s l -> in_strip s a b -> x <= a < x + w /\ y <= b < y + h) /\
    (forall a b, x <= a < x + w -> y <= b < y + h ->
       exists k s, nth_error l k = Some s /\ in_strip s a b /\
         forall k' s', nth_error l k' = Some s' -> in_strip s' a b -> k' = k).
Proof.
  intros Hw Hh Hn Hx Hy Bx By. destruct (calc_facts w h n) as ((T1 & T2 & T3) & L & In_); auto.
  exists (map (place x y) (calc_strips w h n)). split; [apply area_calculate_rel; assumption|].
  rewrite map_length. pose proof (calc_strips_length w h n Hw Hh Hn). split; [lia|]. split; [lia|].
  split; [|split].
  - intros s Hs. apply in_map_iff in Hs as (t & <- & Ht). specialize (In_ t Ht). unfold place; cbn [sw sh]. lia.
  - intros s a b Hs. apply in_map_iff in Hs as (t & <- & Ht). specialize (In_ t Ht).
    unfold in_strip, place; cbn [sx sy sw sh]. lia.
  - intros a b Ha Hb. destruct (T2 (a - x) (b - y)) as (k & s & Hk & Hc); try lia.
    exists k, (place x y s). split; [rewrite nth_error_map, Hk; reflexivity|]. unfold covers in Hc.
    split; [unfold in_strip, place; cbn [sx sy sw sh]; lia|].
    intros k' s' Hk' Hin. rewrite nth_error_map in Hk'.
    destruct (nth_error (calc_strips w h n) k') as [t|] eqn:Et; [|discriminate]. cbn in Hk'. injection Hk' as <-.
    apply (T3 k' k t s (a - x) (b - y) Et Hk); unfold covers; auto.
    unfold in_strip, place in Hin; cbn [sx sy sw sh] in Hin. lia.
Qed.
(** A tall region is cut into rows, a wide and low one into columns. *)
Example C47_case_rows : @area_calculate mem 3 5 20 7 3
  = Ok [mkStrip 3 5 20 3; mkStrip 3 8 20 2; mkStrip 3 10 20 2].
Proof. reflexivity. Qed.
Example C47_case_columns : @area_calculate mem 3 5 50 2 4
  = Ok [mkStrip 3 5 17 2; mkStrip 20 5 17 2; mkStrip 37 5 16 2].
Proof. reflexivity. Qed.
Print Assumptions C47_region_splitter.

(** ** C48 *)

(** The memory [M] is the one a call leaves that returned normally with result [r]. *)
Definition same_memory (M : mem) (r : res mem mem) : Prop :=
  exists m', r = Ok m' /\ (forall p, get M p = get m' p) /\ (forall b, len M b = len m' b).

(** [call sched] is a multi-threaded call in which the tasks make their memory accesses in the
    order given by [sched].  Under every order in which the call returns, it returns normally and
    leaves the memory of the single-threaded result [r]; and it returns as soon as every task has
    made enough steps. *)
Definition agrees (n : Z) (call : list nat -> res mem mem) (r : res mem mem) : Prop :=
  (forall sched, call sched = Timeout \/ exists M, call sched = Ok M /\ same_memory M r) /\
  (exists K, forall sched,
     (forall i, (i < Z.to_nat n)%nat -> (K <= count_occ Nat.eq_dec sched i)%nat) -> call sched <> Timeout).

Lemma agrees_of_writes n call r m out x y w h V :
  area m out x y w h ->
  every_schedule (Z.to_nat n) call (fun M => writes (Ok M : res mem mem) m out x y w h V) ->
  writes r m out x y w h V -> agrees n call r.
Proof.
  intros [Wo Ro] H Hr. pose proof Hr as (m' & -> & _).
  apply (every_schedule_weak _ _ _ (fun M => same_memory M (Ok m')) ) in H; [exact H|].
  intros M HM. exists m'. split; [reflexivity|]. apply (writes_unique m M m' out x y w h V); auto.
Qed.

Definition pcall2 : Type :=
  Z -> list nat -> mem -> image -> Z -> Z -> image -> Z -> Z -> image -> Z -> Z -> Z -> Z -> res mem mem.
Definition pool_two_input : list (pcall2 * call2) :=
  [(pool_AbsoluteDifference, AbsoluteDifference);
   (pool_BitwiseAnd, BitwiseAnd);
   (pool_BitwiseOr, BitwiseOr);
   (pool_BitwiseXor, BitwiseXor);
   (pool_Maximum, Maximum);
   (pool_Minimum, Minimum)].

Lemma pool_two_input_model P F : In (P, F) pool_two_input ->
  exists g, P = pool2 (pixelwise2_code opt3 g) /\ F = pixelwise2 opt3 g.
Proof.
  unfold pool_two_input. cbn [In].
  intros [E|[E|[E|[E|[E|[E|[]]]]]]]; injection E as <- <-; eexists; split; reflexivity.
Qed.

Theorem C48_two_input P F n m in1 x1 y1 in2 x2 y2 out xo yo w h :
  In (P, F) pool_two_input -> 0 < n ->
  area m in1 x1 y1 w h -> area m in2 x2 y2 w h -> area m out xo yo w h ->
  icc in1 = icc out -> icc in2 = icc out ->
  no_hazard out xo yo in1 x1 y1 w h -> no_hazard out xo yo in2 x2 y2 w h ->
  agrees n (fun s => P n s m in1 x1 y1 in2 x2 y2 out xo yo w h) (F m in1 x1 y1 in2 x2 y2 out xo yo w h).
Proof.
  intros HP Hn A1 A2 Ao C1 C2 N1 N2. destruct (pool_two_input_model P F HP) as (g & -> & ->).
  pose proof A1 as [W1 R1]. pose proof A2 as [W2 R2]. pose proof Ao as [Wo Ro].
  assert (Hopt : forall im, In im [in1; in2; out] -> exists im', In im' (opt3 in1 in2 out) /\ irs im = irs im')
    by (intros im Hi; exists im; auto).
  eapply (agrees_of_writes n _ _ m out xo yo w h
            (fun i j c => g (pixel m in1 (x1 + i) (y1 + j) c) (pixel m in2 (x2 + i) (y2 + j) c))); auto.
  - apply (pool2_schedules _ (pixelwise2 opt3 g)); auto using aligned_hazard.
    intros a b w' h' Ha Hb Hw' Hh' Haw Hbh.
    assert (S1 : roi_in in1 (x1 + a) (y1 + b) w' h') by (eapply sub_roi; eauto).
    assert (S2 : roi_in in2 (x2 + a) (y2 + b) w' h') by (eapply sub_roi; eauto).
    assert (So : roi_in out (xo + a) (yo + b) w' h') by (eapply sub_roi; eauto).
    split; [apply (pixelwise2_strip m); auto|].
    eapply writes_ext; [apply (pixelwise2_writes opt3 g); auto; eapply sub_hazard; eauto|].
    intros i j c _. cbv beta. rewrite !Z.add_assoc. reflexivity.
  - apply (pixelwise2_writes opt3 g); auto.
Qed.
(** Three threads; output separate from the inputs, output being the first input. *)
Example C48_case_separate : agrees 3
  (fun s => pool_Maximum 3 s emem (img 1 5 4 3 16) 1 1 (img 2 4 3 3 12) 0 1 (img 3 6 5 3 20) 2 0 3 2)
  (Maximum emem (img 1 5 4 3 16) 1 1 (img 2 4 3 3 12) 0 1 (img 3 6 5 3 20) 2 0 3 2).
Proof.
  refine (C48_two_input _ _ 3 _ _ _ _ _ _ _ _ _ _ _ _ _ _ _ _ _ _ _ _ _);
    try solve_area; try reflexivity; try (apply hazard_of_disjoint; solve_disjoint).
  do 4 right. left. reflexivity.
Qed.
Example C48_case_in_place : agrees 2
  (fun s => pool_BitwiseXor 2 s emem (img 1 50 4 1 52) 1 1 (img 2 48 3 1 48) 0 1 (img 1 50 4 1 52) 1 1 48 2)
  (BitwiseXor emem (img 1 50 4 1 52) 1 1 (img 2 48 3 1 48) 0 1 (img 1 50 4 1 52) 1 1 48 2).
Proof.
  refine (C48_two_input _ _ 2 _ _ _ _ _ _ _ _ _ _ _ _ _ _ _ _ _ _ _ _ _);
    try solve_area; try reflexivity; try (apply hazard_of_disjoint; solve_disjoint).
  - do 3 right. left. reflexivity.
  - apply (no_hazard_same emem); [solve_wf|solve_roi].
Qed.
Print Assumptions C48_two_input.

(** The claim for all functions of that shape, Subtract included. *)
Definition C48_claim : Prop :=
  forall P F n m in1 x1 y1 in2 x2 y2 out xo yo w h,
  In (P, F) ((pool_Subtract, Subtract) :: pool_two_input) -> 0 < n ->
  area m in1 x1 y1 w h -> area m in2 x2 y2 w h -> area m out xo yo w h ->
  icc in1 = icc out -> icc in2 = icc out ->
  no_hazard out xo yo in1 x1 y1 w h -> no_hazard out xo yo in2 x2 y2 w h ->
  agrees n (fun s => P n s m in1 x1 y1 in2 x2 y2 out xo yo w h) (F m in1 x1 y1 in2 x2 y2 out xo yo w h).

(** 2x2 images, the second one with padded rows (the layout of C02): with two threads each task
    gets one row, so that rows are not merged, and the result is right; the single-threaded call
    merges the rows. *)
Definition fair2 : list nat := concat (repeat [0; 1]%nat 20).
Lemma not_agrees n call r sched p :
  match call sched, r with
  | Ok M, Ok m' => negb (get M p =? get m' p)
  | _, _ => false
  end = true -> ~ agrees n call r.
Proof.
  intros H [A _]. destruct (A sched) as [E|(M & E & m' & Er & Hg & _)]; rewrite E in H; [discriminate|].
  rewrite Er in H. rewrite Hg, Z.eqb_refl in H. discriminate.
Qed.
Theorem C48_subtract_refuted : ~ C48_claim.
Proof.
  intros H.
  apply (not_agrees 2 (fun s => pool_Subtract 2 s c02_mem (img 1 2 2 1 2) 0 0 (img 2 2 2 1 4) 0 0 (img 3 2 2 1 2) 0 0 2 2)
           (Subtract c02_mem (img 1 2 2 1 2) 0 0 (img 2 2 2 1 4) 0 0 (img 3 2 2 1 2) 0 0 2 2) fair2 (3, 2)).
  - clear H. vm_compute. reflexivity.
  - apply (H pool_Subtract Subtract); clear H.
    + left. reflexivity.
    + lia.
    + solve_area.
    + solve_area.
    + solve_area.
    + reflexivity.
    + reflexivity.
    + apply hazard_of_disjoint; solve_disjoint.
    + apply hazard_of_disjoint; solve_disjoint.
Qed.
Print Assumptions C48_subtract_refuted.

(** Subtract agrees under the layout condition of C02. *)
Theorem C48_subtract_partial n m in1 x1 y1 in2 x2 y2 out xo yo w h :
  0 < n -> area m in1 x1 y1 w h -> area m in2 x2 y2 w h -> area m out xo yo w h ->
  icc in1 = icc out -> icc in2 = icc out ->
  no_hazard out xo yo in1 x1 y1 w h -> no_hazard out xo yo in2 x2 y2 w h ->
  irs in2 = irs in1 \/ irs in1 <> w * icc out \/ irs out <> w * icc out \/ h = 1 ->
  agrees n (fun s => pool_Subtract n s m in1 x1 y1 in2 x2 y2 out xo yo w h)
    (Subtract m in1 x1 y1 in2 x2 y2 out xo yo w h).
Proof.
  intros Hn A1 A2 Ao C1 C2 N1 N2 L.
  pose proof A1 as [W1 R1]. pose proof A2 as [W2 R2]. pose proof Ao as [Wo Ro].
  assert (Hopt : forall w' h', 0 < w' -> w' <= w -> 0 < h' -> h' <= h ->
     (forall im, In im [in1; in2; out] -> exists im', In im' (opt3_subtract in1 in2 out) /\ irs im = irs im')
     \/ OptimiseRoi (w' * icc out) h' (opt3_subtract in1 in2 out) = (w' * icc out, h')).
  { intros w' h' Hw Hww Hh Hhh. pose proof (wf_cc_pos _ _ Wo). pose proof (wf_rs _ _ W1). pose proof (wf_rs _ _ Wo).
    rewrite C1 in *. destruct R1, Ro.
    destruct L as [L|L].
    + left. intros im [<-|[<-|[<-|[]]]]; [exists in1|exists in1|exists out]; unfold opt3_subtract; simpl; auto.
    + right. destruct (OptimiseRoi_cases (w' * icc out) h' (opt3_subtract in1 in2 out)) as [E|(E & _ & Hr)]; try nia; auto.
      assert (E1 : irs in1 = w' * icc out) by (apply Hr; unfold opt3_subtract; simpl; auto).
      assert (Eo : irs out = w' * icc out) by (apply Hr; unfold opt3_subtract; simpl; auto).
      assert (w' = w) by nia. subst w'.
      destruct L as [L|[L|L]]; try congruence. rewrite E. f_equal; nia. }
  assert (Hwh : 0 < w /\ 0 < h) by (destruct R1; auto).
  eapply (agrees_of_writes n _ _ m out xo yo w h
            (fun i j c => sub_px (pixel m in1 (x1 + i) (y1 + j) c) (pixel m in2 (x2 + i) (y2 + j) c))); auto.
  - apply (pool2_schedules _ (pixelwise2 opt3_subtract sub_px)); auto using aligned_hazard.
    intros a b w' h' Ha Hb Hw' Hh' Haw Hbh.
    assert (S1 : roi_in in1 (x1 + a) (y1 + b) w' h') by (eapply sub_roi; eauto).
    assert (S2 : roi_in in2 (x2 + a) (y2 + b) w' h') by (eapply sub_roi; eauto).
    assert (So : roi_in out (xo + a) (yo + b) w' h') by (eapply sub_roi; eauto).
    assert (Ho := Hopt w' h' ltac:(lia) ltac:(lia) ltac:(lia) ltac:(lia)).
    split; [apply (pixelwise2_strip m); auto|].
    eapply writes_ext; [apply (pixelwise2_writes opt3_subtract sub_px); auto; eapply sub_hazard; eauto|].
    intros i j c _. cbv beta. rewrite !Z.add_assoc. reflexivity.
  - apply (pixelwise2_writes opt3_subtract sub_px); auto. apply Hopt; lia.
Qed.
Example C48_subtract_case : agrees 4
  (fun s => pool_Subtract 4 s emem (img 1 5 4 3 15) 1 1 (img 2 5 4 3 16) 0 1 (img 3 6 5 3 20) 2 0 3 2)
  (Subtract emem (img 1 5 4 3 15) 1 1 (img 2 5 4 3 16) 0 1 (img 3 6 5 3 20) 2 0 3 2).
Proof.
  refine (C48_subtract_partial 4 _ _ _ _ _ _ _ _ _ _ _ _ _ _ _ _ _ _ _ _ _); try solve_area; try reflexivity;
    try (apply hazard_of_disjoint; solve_disjoint).
  right; left. cbn. lia.
Qed.
Print Assumptions C48_subtract_partial.

(** One input: a scheme for the functions whose tasks are strips of the same function. *)
Lemma one_input_agrees pre F G V n m inp xi yi out xo yo w h :
  0 < n -> area m inp xi yi w h -> area m out xo yo w h -> pre inp out = true -> aligned out xo yo inp xi yi w h ->
  (forall a b w' h', 0 <= a -> 0 <= b -> 0 < w' -> 0 < h' -> a + w' <= w -> b + h' <= h ->
    roi_in inp (xi + a) (yi + b) w' h' -> roi_in out (xo + a) (yo + b) w' h' ->
    strip_ok (F inp (xi + a) (yi + b) out (xo + a) (yo + b) w' h')
      (fun m => G m inp (xi + a) (yi + b) out (xo + a) (yo + b) w' h')
      (in_roi out (xo + a) (yo + b) w' h') (in_roi inp (xi + a) (yi + b) w' h') /\
    writes (G m inp (xi + a) (yi + b) out (xo + a) (yo + b) w' h') m out (xo + a) (yo + b) w' h'
      (fun i j c => V (a + i) (b + j) c)) ->
  agrees n (fun s => pool1 pre F n s m inp xi yi out xo yo w h) (G m inp xi yi out xo yo w h).
Proof.
  intros Hn A1 Ao Hp Ha Hs. pose proof A1 as [W1 R1]. pose proof Ao as [Wo Ro].
  assert (Hwh : 0 < w /\ 0 < h) by (destruct R1; auto).
  apply (agrees_of_writes n _ _ m out xo yo w h V); auto.
  - apply (pool1_schedules pre F G V); auto. intros a b w' h' H1 H2 H3 H4 H5 H6. apply Hs; auto; eapply sub_roi; eauto.
  - destruct (Hs 0 0 w h) as [_ Hw]; rewrite ?Z.add_0_r; auto; try lia. rewrite !Z.add_0_r in Hw. exact Hw.
Qed.

Tactic Notation "shift" tactic3(t) :=
  eapply writes_ext; [t|intros ? ? ? _; cbv beta; rewrite !Z.add_assoc; reflexivity].

Theorem C48_invert n m inp xi yi out xo yo w h :
  0 < n -> area m inp xi yi w h -> area m out xo yo w h -> icc inp = icc out -> no_hazard out xo yo inp xi yi w h ->
  agrees n (fun s => pool_Invert n s m inp xi yi out xo yo w h) (Invert m inp xi yi out xo yo w h).
Proof.
  intros Hn A1 Ao C N. pose proof A1 as [W1 R1]. pose proof Ao as [Wo Ro].
  apply (one_input_agrees _ _ Invert (fun i j c => invert_px (pixel m inp (xi + i) (yi + j) c))); auto using aligned_hazard.
  intros a b w' h' Ha Hb Hw Hh Haw Hbh S1 So. split.
  - apply (pixelwise1_strip m common_cc2 _ (fun a => Ok (invert_px a))); auto. apply Z.eqb_eq. exact C.
  - shift (apply (pixelwise1_writes common_cc2 (fun a => Ok (invert_px a))
             (fun i j c => invert_px (pixel m inp (xi + a + i) (yi + b + j) c))); auto; [apply Z.eqb_eq; exact C|];
           eapply sub_hazard; eauto).
Qed.
Theorem C48_threshold t n m inp xi yi out xo yo w h :
  0 < n -> area m inp xi yi w h -> area m out xo yo w h -> icc inp = 1 -> icc out = 1 ->
  no_hazard out xo yo inp xi yi w h ->
  agrees n (fun s => pool_Threshold t n s m inp xi yi out xo yo w h) (Threshold t m inp xi yi out xo yo w h).
Proof.
  intros Hn A1 Ao C Co N. pose proof A1 as [W1 R1]. pose proof Ao as [Wo Ro].
  apply (one_input_agrees _ _ (Threshold t) (fun i j c => thr_px t (pixel m inp (xi + i) (yi + j) c))); auto using aligned_hazard.
  intros a b w' h' Ha Hb Hw Hh Haw Hbh S1 So. split.
  - apply (pixelwise1_strip m (fun a b => is_gray a && is_gray b) _ (fun a => Ok (thr_px t a))); auto; try congruence.
    rewrite !gray_true by assumption. reflexivity.
  - shift (apply (pixelwise1_writes (fun a b => is_gray a && is_gray b) (fun a => Ok (thr_px t a))
             (fun i j c => thr_px t (pixel m inp (xi + a + i) (yi + b + j) c))); auto; try congruence;
           [rewrite !gray_true by assumption; reflexivity|eapply sub_hazard; eauto]).
Qed.
Theorem C48_threshold_band lo hi n m inp xi yi out xo yo w h :
  0 < n -> area m inp xi yi w h -> area m out xo yo w h -> icc inp = 1 -> icc out = 1 -> lo <= hi ->
  no_hazard out xo yo inp xi yi w h ->
  agrees n (fun s => pool_Threshold2 lo hi n s m inp xi yi out xo yo w h) (Threshold2 lo hi m inp xi yi out xo yo w h).
Proof.
  intros Hn A1 Ao C Co L N. pose proof A1 as [W1 R1]. pose proof Ao as [Wo Ro]. apply Z.leb_le in L.
  apply (one_input_agrees _ _ (Threshold2 lo hi) (fun i j c => thr2_px lo hi (pixel m inp (xi + i) (yi + j) c))); auto using aligned_hazard.
  intros a b w' h' Ha Hb Hw Hh Haw Hbh S1 So. split.
  - apply (pixelwise1_strip m (fun a b => is_gray a && is_gray b && (lo <=? hi)) _ (fun a => Ok (thr2_px lo hi a))); auto; try congruence.
    rewrite !gray_true, L by assumption. reflexivity.
  - shift (apply (pixelwise1_writes (fun a b => is_gray a && is_gray b && (lo <=? hi)) (fun a => Ok (thr2_px lo hi a))
             (fun i j c => thr2_px lo hi (pixel m inp (xi + a + i) (yi + b + j) c))); auto; try congruence;
           [rewrite !gray_true, L by assumption; reflexivity|eapply sub_hazard; eauto]).
Qed.
Theorem C48_lookup_table table n m inp xi yi out xo yo w h :
  0 < n -> area m inp xi yi w h -> area m out xo yo w h -> icc inp = icc out -> bytes m inp ->
  no_hazard out xo yo inp xi yi w h -> length table = 256%nat ->
  agrees n (fun s => pool_LookupTable table n s m inp xi yi out xo yo w h) (LookupTable table m inp xi yi out xo yo w h).
Proof.
  intros Hn A1 Ao C B N L. pose proof A1 as [W1 R1]. pose proof Ao as [Wo Ro].
  apply (one_input_agrees _ _ (LookupTable table) (fun i j c => nth (Z.to_nat (pixel m inp (xi + i) (yi + j) c)) table 0));
    auto using aligned_hazard.
  intros a b w' h' Ha Hb Hw Hh Haw Hbh S1 So. split.
  - unfold LookupTable.
    apply (pixelwise1_strip m (fun a b => (Z.of_nat (length table) =? 256) && common_cc2 a b) _ (vnth table)); auto.
    + rewrite L. unfold common_cc2. rewrite C, !Z.eqb_refl. reflexivity.
    + intros v. unfold vnth, table_at. destruct ((0 <=? v) && (v <? Z.of_nat (length table))); reflexivity.
  - shift (apply C03_lookup_table; auto; try (split; assumption); eapply sub_hazard; eauto).
Qed.
Theorem C48_to_gray n m inp xi yi out xo yo w h :
  0 < n -> area m inp xi yi w h -> area m out xo yo w h -> icc inp = 3 \/ icc inp = 1 -> icc out = 1 ->
  disjoint out xo yo w h inp xi yi w h ->
  agrees n (fun s => pool_ConvertToGrayScale n s m inp xi yi out xo yo w h) (ConvertToGrayScale m inp xi yi out xo yo w h).
Proof.
  intros Hn A1 Ao [C|C] Co D; pose proof A1 as [W1 R1]; pose proof Ao as [Wo Ro].
  - apply (one_input_agrees _ _ ConvertToGrayScale (fun i j c =>
      u8 ((pixel m inp (xi + i) (yi + j) 0 + pixel m inp (xi + i) (yi + j) 1 + pixel m inp (xi + i) (yi + j) 2) / 3)));
      auto using aligned_disjoint.
    intros a b w' h' Ha Hb Hw Hh Haw Hbh S1 So.
    assert (D' : disjoint out (xo + a) (yo + b) w' h' inp (xi + a) (yi + b) w' h') by (eapply sub_disjoint; eauto).
    split; [apply (ConvertToGrayScale_strip_rgb m); auto|].
    shift (apply ConvertToGrayScale_writes; auto).
  - apply (one_input_agrees _ _ ConvertToGrayScale (fun i j c => pixel m inp (xi + i) (yi + j) c));
      auto using aligned_disjoint.
    intros a b w' h' Ha Hb Hw Hh Haw Hbh S1 So.
    assert (D' : disjoint out (xo + a) (yo + b) w' h' inp (xi + a) (yi + b) w' h') by (eapply sub_disjoint; eauto).
    split; [apply (ConvertToGrayScale_strip_gray m); auto|].
    shift (apply C14_same_colour_copies; auto; try (split; assumption); congruence).
Qed.
Theorem C48_to_rgb n m inp xi yi out xo yo w h :
  0 < n -> area m inp xi yi w h -> area m out xo yo w h -> icc inp = 1 \/ icc inp = 3 -> icc out = 3 ->
  disjoint out xo yo w h inp xi yi w h ->
  agrees n (fun s => pool_ConvertToRgb n s m inp xi yi out xo yo w h) (ConvertToRgb m inp xi yi out xo yo w h).
Proof.
  intros Hn A1 Ao [C|C] Co D; pose proof A1 as [W1 R1]; pose proof Ao as [Wo Ro].
  - apply (one_input_agrees _ _ ConvertToRgb (fun i j c => pixel m inp (xi + i) (yi + j) 0)); auto using aligned_disjoint.
    intros a b w' h' Ha Hb Hw Hh Haw Hbh S1 So.
    assert (D' : disjoint out (xo + a) (yo + b) w' h' inp (xi + a) (yi + b) w' h') by (eapply sub_disjoint; eauto).
    split; [apply (ConvertToRgb_strip_gray m); auto|].
    shift (apply ConvertToRgb_writes; auto).
  - apply (one_input_agrees _ _ ConvertToRgb (fun i j c => pixel m inp (xi + i) (yi + j) c)); auto using aligned_disjoint.
    intros a b w' h' Ha Hb Hw Hh Haw Hbh S1 So.
    assert (D' : disjoint out (xo + a) (yo + b) w' h' inp (xi + a) (yi + b) w' h') by (eapply sub_disjoint; eauto).
    split; [apply (ConvertToRgb_strip_rgb m); auto|].
    shift (apply C14_same_colour_copies; auto; try (split; assumption); congruence).
Qed.
Theorem C48_extract_channel ch n m inp xi yi out xo yo w h :
  0 < n -> area m inp xi yi w h -> area m out xo yo w h -> icc out = 1 -> 0 <= ch < icc inp ->
  disjoint out xo yo w h inp xi yi w h ->
  agrees n (fun s => pool_ExtractChannel ch n s m inp xi yi out xo yo w h) (ExtractChannel m inp xi yi out xo yo w h ch).
Proof.
  intros Hn A1 Ao Co Hc D. pose proof A1 as [W1 R1]. pose proof Ao as [Wo Ro].
  apply (one_input_agrees _ _ (fun m inp xi yi out xo yo w h => ExtractChannel m inp xi yi out xo yo w h ch)
           (fun i j c => pixel m inp (xi + i) (yi + j) ch)); auto using aligned_disjoint, gray_true.
  intros a b w' h' Ha Hb Hw Hh Haw Hbh S1 So.
  assert (D' : disjoint out (xo + a) (yo + b) w' h' inp (xi + a) (yi + b) w' h') by (eapply sub_disjoint; eauto).
  split; [apply (ExtractChannel_strip m); auto|].
  shift (apply C09_extract_channel; auto; split; assumption).
Qed.
Theorem C48_rgb_to_bgr n m inp xi yi out xo yo w h :
  0 < n -> area m inp xi yi w h -> area m out xo yo w h -> icc inp = 3 -> icc out = 3 ->
  disjoint out xo yo w h inp xi yi w h ->
  agrees n (fun s => pool_RgbToBgr n s m inp xi yi out xo yo w h) (RgbToBgr m inp xi yi out xo yo w h).
Proof.
  intros Hn A1 Ao C Co D. pose proof A1 as [W1 R1]. pose proof Ao as [Wo Ro].
  apply (one_input_agrees _ _ RgbToBgr (fun i j c => pixel m inp (xi + i) (yi + j) (2 - c))); auto using aligned_disjoint.
  intros a b w' h' Ha Hb Hw Hh Haw Hbh S1 So.
  assert (D' : disjoint out (xo + a) (yo + b) w' h' inp (xi + a) (yi + b) w' h') by (eapply sub_disjoint; eauto).
  split; [apply (RgbToBgr_strip m); auto|].
  shift (apply C10_rgb_to_bgr; auto; split; assumption).
Qed.
Theorem C48_merge n m in1 x1 y1 in2 x2 y2 in3 x3 y3 out xo yo w h :
  0 < n -> area m in1 x1 y1 w h -> area m in2 x2 y2 w h -> area m in3 x3 y3 w h -> area m out xo yo w h ->
  icc in1 = 1 -> icc in2 = 1 -> icc in3 = 1 -> icc out = 3 ->
  disjoint out xo yo w h in1 x1 y1 w h -> disjoint out xo yo w h in2 x2 y2 w h ->
  disjoint out xo yo w h in3 x3 y3 w h ->
  agrees n (fun s => pool_Merge n s m in1 x1 y1 in2 x2 y2 in3 x3 y3 out xo yo w h)
    (Merge m in1 x1 y1 in2 x2 y2 in3 x3 y3 out xo yo w h).
Proof.
  intros Hn A1 A2 A3 Ao C1 C2 C3 Co D1 D2 D3.
  pose proof A1 as [W1 R1]. pose proof A2 as [W2 R2]. pose proof A3 as [W3 R3]. pose proof Ao as [Wo Ro].
  apply (agrees_of_writes n _ _ m out xo yo w h
    (fun i j c => if c =? 0 then pixel m in1 (x1 + i) (y1 + j) 0
                  else if c =? 1 then pixel m in2 (x2 + i) (y2 + j) 0
                  else pixel m in3 (x3 + i) (y3 + j) 0)); auto.
  - apply pool_Merge_schedules; auto using aligned_disjoint.
    intros a b w' h' Ha Hb Hw Hh Haw Hbh.
    assert (roi_in in1 (x1 + a) (y1 + b) w' h') by (eapply sub_roi; eauto).
    assert (roi_in in2 (x2 + a) (y2 + b) w' h') by (eapply sub_roi; eauto).
    assert (roi_in in3 (x3 + a) (y3 + b) w' h') by (eapply sub_roi; eauto).
    assert (roi_in out (xo + a) (yo + b) w' h') by (eapply sub_roi; eauto).
    split; [apply (Merge_strip m); auto|].
    shift (apply C09_merge; auto; try (split; assumption); eapply sub_disjoint; eauto).
  - apply C09_merge; auto.
Qed.

Lemma roi3_dec m o x y w h p : area m o x y w h -> icc o = 1 ->
  (exists i j, inside w h 1 i j 0 /\ p = px o (x + i) (y + j) 0) \/
  (forall i j, inside w h 1 i j 0 -> p <> px o (x + i) (y + j) 0).
Proof.
  intros [W R] C. destruct (roi_dec m o x y w h p W R) as [(i & j & c & Hi & ->)|H].
  - left. exists i, j. rewrite C in Hi. destruct Hi as (Hi & Hj & Hc). assert (c = 0) by lia. subst c.
    split; [unfold inside; lia|reflexivity].
  - right. intros i j Hi. apply H. rewrite C. exact Hi.
Qed.
Theorem C48_split n m inp xi yi o1 x1 y1 o2 x2 y2 o3 x3 y3 w h :
  0 < n -> area m inp xi yi w h -> area m o1 x1 y1 w h -> area m o2 x2 y2 w h -> area m o3 x3 y3 w h ->
  icc inp = 3 -> icc o1 = 1 -> icc o2 = 1 -> icc o3 = 1 ->
  disjoint inp xi yi w h o1 x1 y1 w h -> disjoint inp xi yi w h o2 x2 y2 w h ->
  disjoint inp xi yi w h o3 x3 y3 w h ->
  disjoint o1 x1 y1 w h o2 x2 y2 w h -> disjoint o1 x1 y1 w h o3 x3 y3 w h ->
  disjoint o2 x2 y2 w h o3 x3 y3 w h ->
  agrees n (fun s => pool_Split n s m inp xi yi o1 x1 y1 o2 x2 y2 o3 x3 y3 w h)
    (Split m inp xi yi o1 x1 y1 o2 x2 y2 o3 x3 y3 w h).
Proof.
  intros Hn Ai A1 A2 A3 Ci C1 C2 C3 D1 D2 D3 D12 D13 D23.
  pose proof Ai as [Wi Ri]. pose proof A1 as [W1 R1]. pose proof A2 as [W2 R2]. pose proof A3 as [W3 R3].
  destruct (C09_split m inp xi yi o1 x1 y1 o2 x2 y2 o3 x3 y3 w h) as (m' & Em & V' & L' & F'); auto.
  rewrite Em.
  eapply every_schedule_weak; [|apply (pool_Split_schedules
     (fun i j => pixel m inp (xi + i) (yi + j) 0) (fun i j => pixel m inp (xi + i) (yi + j) 1)
     (fun i j => pixel m inp (xi + i) (yi + j) 2) n m inp xi yi o1 x1 y1 o2 x2 y2 o3 x3 y3 w h); auto].
  - intros M (M' & EM & V & L & F). injection EM as <-. exists m'. split; [reflexivity|].
    split; [|intros b; rewrite L, L'; reflexivity].
    intros p.
    destruct (roi3_dec m o1 x1 y1 w h p A1 C1) as [(i & j & Hi & ->)|N1].
    { transitivity (pixel m inp (xi + i) (yi + j) 0); [apply (V i j Hi)|symmetry; apply (V' i j Hi)]. }
    destruct (roi3_dec m o2 x2 y2 w h p A2 C2) as [(i & j & Hi & ->)|N2].
    { transitivity (pixel m inp (xi + i) (yi + j) 1); [apply (V i j Hi)|symmetry; apply (V' i j Hi)]. }
    destruct (roi3_dec m o3 x3 y3 w h p A3 C3) as [(i & j & Hi & ->)|N3].
    { transitivity (pixel m inp (xi + i) (yi + j) 2); [apply (V i j Hi)|symmetry; apply (V' i j Hi)]. }
    rewrite F, F' by auto. reflexivity.
  - intros a b w' h' Ha Hb Hw Hh Haw Hbh.
    destruct (C09_split m inp (xi + a) (yi + b) o1 (x1 + a) (y1 + b) o2 (x2 + a) (y2 + b) o3 (x3 + a) (y3 + b) w' h')
      as (q & Eq & Vq & Lq & Fq); auto;
      try (split; [assumption|eapply sub_roi; eauto]); try (eapply sub_disjoint; eauto).
    exists q. split; [exact Eq|]. split; [|split; assumption].
    intros i j Hi. rewrite !(Z.add_assoc xi), !(Z.add_assoc yi). apply Vq. exact Hi.
Qed.
Theorem C48_flip hor ver n m inp xi yi out xo yo w h :
  0 < n -> area m inp xi yi w h -> area m out xo yo w h -> icc inp = 1 -> icc out = 1 ->
  disjoint out xo yo w h inp xi yi w h ->
  agrees n (fun s => pool_Flip hor ver n s m inp xi yi out xo yo w h) (Flip m inp xi yi out xo yo w h hor ver).
Proof.
  intros Hn A1 Ao C Co D. pose proof (C07_flip m inp xi yi out xo yo w h hor ver A1 Ao C Co D) as Hw.
  destruct (hor || ver) eqn:E.
  - eapply agrees_of_writes; [exact Ao|apply pool_Flip_schedules; auto|exact Hw].
  - destruct hor, ver; try discriminate E. clear E.
    pose proof (C03_copy m inp xi yi out xo yo w h A1 Ao ltac:(congruence) D) as Hc.
    destruct Ao as [Wo Ro]. pose proof Hc as (M & EM & _). pose proof Hw as (M' & EM' & _).
    unfold pool_Flip. cbn [negb andb]. rewrite EM, EM'. rewrite EM in Hc. rewrite EM' in Hw. split.
    + intros s. right. exists M. split; [reflexivity|]. exists M'. split; [reflexivity|].
      eapply (writes_unique m M M' out xo yo w h); eauto.
    + exists O. intros s _. discriminate.
Qed.
Theorem C48_transpose n m inp xi yi out xo yo w h :
  0 < n -> area m inp xi yi w h -> area m out xo yo h w -> icc inp = 1 -> icc out = 1 ->
  disjoint out xo yo h w inp xi yi w h ->
  agrees n (fun s => pool_Transpose n s m inp xi yi out xo yo w h) (Transpose m inp xi yi out xo yo w h).
Proof.
  intros Hn A1 Ao C Co D.
  eapply agrees_of_writes; [exact Ao|apply pool_Transpose_schedules; auto|]. apply C08_transpose; auto.
Qed.
(** A 40 x 3 region of a larger image, four threads. *)
Definition ga := img 1 45 4 1 50.
Definition gb := img 2 44 5 1 44.
Definition gt := img 3 6 41 1 8.
Definition grgb := img 4 42 5 3 130.
Definition gl := map Z.of_nat (seq 0 256).
Example C48_one_input_case :
  agrees 4 (fun s => pool_Invert 4 s emem ga 1 1 ga 1 1 40 3) (Invert emem ga 1 1 ga 1 1 40 3) /\
  agrees 4 (fun s => pool_Threshold 77 4 s emem ga 1 1 gb 0 1 40 3) (Threshold 77 emem ga 1 1 gb 0 1 40 3) /\
  agrees 4 (fun s => pool_Threshold2 7 77 4 s emem ga 1 1 gb 0 1 40 3) (Threshold2 7 77 emem ga 1 1 gb 0 1 40 3) /\
  agrees 4 (fun s => pool_LookupTable gl 4 s emem ga 1 1 gb 0 1 40 3) (LookupTable gl emem ga 1 1 gb 0 1 40 3) /\
  agrees 4 (fun s => pool_ConvertToGrayScale 4 s emem grgb 1 1 gb 0 1 40 3) (ConvertToGrayScale emem grgb 1 1 gb 0 1 40 3) /\
  agrees 4 (fun s => pool_ConvertToRgb 4 s emem ga 1 1 grgb 0 1 40 3) (ConvertToRgb emem ga 1 1 grgb 0 1 40 3) /\
  agrees 4 (fun s => pool_ExtractChannel 1 4 s emem grgb 1 1 gb 0 1 40 3) (ExtractChannel emem grgb 1 1 gb 0 1 40 3 1) /\
  agrees 4 (fun s => pool_RgbToBgr 4 s emem grgb 1 1 (img 5 42 5 3 128) 0 1 40 3) (RgbToBgr emem grgb 1 1 (img 5 42 5 3 128) 0 1 40 3) /\
  agrees 4 (fun s => pool_Flip true false 4 s emem ga 1 1 gb 0 1 40 3) (Flip emem ga 1 1 gb 0 1 40 3 true false) /\
  agrees 4 (fun s => pool_Transpose 4 s emem ga 1 1 gt 2 1 40 3) (Transpose emem ga 1 1 gt 2 1 40 3) /\
  agrees 4 (fun s => pool_Merge 4 s emem ga 1 1 gb 1 1 ga 0 0 grgb 0 0 40 3) (Merge emem ga 1 1 gb 1 1 ga 0 0 grgb 0 0 40 3) /\
  agrees 4 (fun s => pool_Split 4 s emem grgb 1 1 ga 1 1 gb 1 1 (img 5 42 5 1 44) 0 0 40 3)
           (Split emem grgb 1 1 ga 1 1 gb 1 1 (img 5 42 5 1 44) 0 0 40 3).
Proof.
  refine (conj _ (conj _ (conj _ (conj _ (conj _ (conj _ (conj _ (conj _ (conj _ (conj _ (conj _ _))))))))))).
  - apply C48_invert; try lia; try solve_area; try reflexivity. apply (no_hazard_same emem); [solve_wf|solve_roi].
  - apply C48_threshold; try lia; try solve_area; try reflexivity. apply hazard_of_disjoint; solve_disjoint.
  - apply C48_threshold_band; try lia; try solve_area; try reflexivity. apply hazard_of_disjoint; solve_disjoint.
  - apply C48_lookup_table; try lia; try solve_area; try reflexivity; try apply emem_bytes. apply hazard_of_disjoint; solve_disjoint.
  - apply C48_to_gray; try lia; try solve_area; try (left; reflexivity); try reflexivity; solve_disjoint.
  - apply C48_to_rgb; try lia; try solve_area; try (left; reflexivity); try reflexivity; solve_disjoint.
  - apply C48_extract_channel; try lia; try solve_area; try (cbn; lia); try reflexivity; solve_disjoint.
  - apply C48_rgb_to_bgr; try lia; try solve_area; try reflexivity; solve_disjoint.
  - apply C48_flip; try lia; try solve_area; try reflexivity; solve_disjoint.
  - apply C48_transpose; try lia; try solve_area; try reflexivity; solve_disjoint.
  - apply C48_merge; try lia; try solve_area; try reflexivity; solve_disjoint.
  - apply C48_split; try lia; try solve_area; try reflexivity; solve_disjoint.
Qed.
Print Assumptions C48_invert.
Print Assumptions C48_threshold.
Print Assumptions C48_threshold_band.
Print Assumptions C48_lookup_table.
Print Assumptions C48_to_gray.
Print Assumptions C48_to_rgb.
Print Assumptions C48_extract_channel.
Print Assumptions C48_rgb_to_bgr.
Print Assumptions C48_merge.
Print Assumptions C48_split.
Print Assumptions C48_flip.
Print Assumptions C48_transpose.

(** Rejected arguments: an exception, under every schedule, and no memory written. *)
Lemma process_all_throw sched m tasks : tasks <> [] -> (forall t, In t tasks -> t = Throw tt) ->
  process sched m tasks = Throw m.
Proof.
  intros Hne Ht. unfold process.
  assert (E : start_all tasks = Ok (repeat TFail (length tasks))).
  { clear Hne. induction tasks as [|t l IH]; [reflexivity|]. cbn [start_all length repeat].
    rewrite (Ht t (or_introl eq_refl)). cbn [bind]. rewrite IH by (intros; apply Ht; right; assumption). reflexivity. }
  rewrite E. cbn [bind].
  assert (S : forall k i, step_nth m (repeat TFail k) i = Ok (m, repeat TFail k)).
  { induction k as [|k IH]; intros [|i]; cbn [repeat step_nth]; auto. rewrite IH. reflexivity. }
  assert (I : interleave sched m (repeat TFail (length tasks)) = Ok (m, repeat TFail (length tasks))).
  { clear E Ht. induction sched as [|i s IH]; [reflexivity|]. cbn [interleave]. rewrite S. cbn [bind]. exact IH. }
  rewrite I. replace (forallb finished (repeat TFail (length tasks))) with true.
  2:{ symmetry. apply forallb_forall. intros t Hin. apply repeat_spec in Hin. subst t. reflexivity. }
  destruct tasks; [congruence|]. reflexivity.
Qed.
Lemma zip2_in {A B C} (f : A -> B -> C) l1 l2 t : In t (zip2 f l1 l2) -> exists a b, In a l1 /\ t = f a b.
Proof.
  unfold zip2. intros H. apply in_map_iff in H as ([a b] & <- & H). apply in_combine_l in H. exists a, b. auto.
Qed.
Lemma zip2_nonempty {A B C} (f : A -> B -> C) a l1 b l2 : zip2 f (a :: l1) (b :: l2) <> [].
Proof. discriminate. Qed.
Lemma strips_cons {E} m im x y w h n : area m im x y w h -> 0 < n ->
  exists s l, @area_calculate E x y w h n = Ok (s :: l) /\
    forall t, In t (s :: l) -> valid_roi im (sx t) (sy t) (sw t) (sh t) = true.
Proof.
  intros A Hn. rewrite (area_calc m im) by assumption. pose proof A as [W R].
  assert (Hwh : 0 < w /\ 0 < h) by (destruct R; auto).
  destruct (calc_facts w h n) as (_ & _ & In_); try lia.
  pose proof (calc_nonempty w h n ltac:(lia) ltac:(lia) Hn) as Hne.
  destruct (calc_strips w h n) as [|s l] eqn:El; [congruence|]. exists (place x y s), (map (place x y) l).
  split; [reflexivity|]. intros t Ht. change (In t (map (place x y) (s :: l))) in Ht.
  apply in_map_iff in Ht as (u & <- & Hu). specialize (In_ u Hu). apply (valid_roi_ok m); auto.
  unfold place; cbn [sx sy sw sh]. eapply sub_roi; eauto; lia.
Qed.

Theorem C48_two_input_rejects P F n sched m in1 x1 y1 in2 x2 y2 out xo yo w h :
  In (P, F) ((pool_Subtract, Subtract) :: pool_two_input) -> 0 < n ->
  args_u32 in1 x1 y1 w h -> args_u32 in2 x2 y2 w h -> args_u32 out xo yo w h ->
  ~ (valid_arg in1 x1 y1 w h /\ valid_arg in2 x2 y2 w h /\ valid_arg out xo yo w h) \/
  (area m in1 x1 y1 w h /\ area m in2 x2 y2 w h /\ area m out xo yo w h /\
   (icc in1 <> icc out \/ icc in2 <> icc out)) ->
  rejected (P n sched m in1 x1 y1 in2 x2 y2 out xo yo w h) m /\
  rejected (F m in1 x1 y1 in2 x2 y2 out xo yo w h) m.
Proof.
  intros HP Hn U1 U2 Uo Hbad.
  assert (E : exists opt g, P = pool2 (pixelwise2_code opt g) /\ F = pixelwise2 opt g).
  { destruct HP as [E|HP]; [injection E as <- <-; exists opt3_subtract, sub_px; split; reflexivity|].
    destruct (pool_two_input_model P F HP) as (g & -> & ->). exists opt3, g. split; reflexivity. }
  destruct E as (opt & g & -> & ->). unfold rejected, pool2, pixelwise2.
  destruct Hbad as [Hbad|(A1 & A2 & Ao & Hc)].
  - rewrite bad3 by assumption. split; reflexivity.
  - assert (Hcc : common_cc3 in1 in2 out = false).
    { unfold common_cc3. destruct (Z.eqb_spec (icc in1) (icc in2)), (Z.eqb_spec (icc in1) (icc out)); cbn [andb]; auto. lia. }
    unfold valid_roi3 at 1 2, valid_roi2. rewrite !(valid_roi_ok m) by (apply A1 || apply A2 || apply Ao). rewrite Hcc. cbn [andb].
    rewrite has_threads_true by assumption. split; [|reflexivity].
    destruct (@strips_cons mem m in1 x1 y1 w h n A1 Hn) as (s1 & l1 & E1 & V1).
    destruct (@strips_cons mem m in2 x2 y2 w h n A2 Hn) as (s2 & l2 & E2 & V2).
    destruct (@strips_cons mem m out xo yo w h n Ao Hn) as (so & lo & Eo & Vo).
    rewrite E1, E2, Eo. cbn [bind]. apply process_all_throw; [discriminate|].
    intros t Ht. apply zip2_in in Ht as (a & q & Ha & ->). unfold pixelwise2_code.
    destruct (valid_roi3 _ _ _ _ _ _ _ _ _ _ _); [|reflexivity]. rewrite Hcc. reflexivity.
Qed.
Example C48_two_input_rejects_case : rejected
  (pool_Maximum 3 fair2 emem (img 1 5 4 3 16) 1 1 (img 2 4 3 3 12) 0 1 (img 3 6 5 1 20) 2 0 3 2) emem /\
  rejected (pool_Maximum 3 fair2 emem (img 1 5 4 3 16) 1 1 (img 2 4 3 3 12) 2 1 (img 3 6 5 3 20) 2 0 3 2) emem.
Proof. split; vm_compute; reflexivity. Qed.
Print Assumptions C48_two_input_rejects.

Theorem C48_one_input_rejects n sched m inp xi yi out xo yo w h :
  0 < n -> args_u32 inp xi yi w h -> args_u32 out xo yo w h ->
  let invalid := ~ (valid_arg inp xi yi w h /\ valid_arg out xo yo w h) in
  let valid := area m inp xi yi w h /\ area m out xo yo w h in
  (invalid \/ (valid /\ icc inp <> icc out) -> rejected (pool_Invert n sched m inp xi yi out xo yo w h) m) /\
  (invalid \/ (valid /\ (icc inp <> 1 \/ icc out <> 1)) -> forall t, rejected (pool_Threshold t n sched m inp xi yi out xo yo w h) m) /\
  (forall lo hi, invalid \/ (valid /\ (icc inp <> 1 \/ icc out <> 1)) \/ hi < lo ->
     rejected (pool_Threshold2 lo hi n sched m inp xi yi out xo yo w h) m) /\
  (forall table, invalid \/ (valid /\ (icc inp <> icc out \/ length table <> 256%nat)) ->
     rejected (pool_LookupTable table n sched m inp xi yi out xo yo w h) m) /\
  (invalid \/ (valid /\ icc out <> 1) -> rejected (pool_ConvertToGrayScale n sched m inp xi yi out xo yo w h) m) /\
  (invalid \/ (valid /\ icc out <> 3) -> rejected (pool_ConvertToRgb n sched m inp xi yi out xo yo w h) m) /\
  (forall ch, invalid \/ (valid /\ (icc out <> 1 \/ icc inp <= ch)) ->
     rejected (pool_ExtractChannel ch n sched m inp xi yi out xo yo w h) m) /\
  (invalid \/ (valid /\ (icc inp <> 3 \/ icc out <> 3)) -> rejected (pool_RgbToBgr n sched m inp xi yi out xo yo w h) m).
Proof.
  intros Hn Ui Uo invalid valid. unfold rejected.
  assert (Hbad : forall pre F, invalid -> pool1 pre F n sched m inp xi yi out xo yo w h = Throw m).
  { intros pre F H. unfold pool1. rewrite bad2 by assumption. reflexivity. }
  assert (Hthrow : forall pre (F : image -> Z -> Z -> image -> Z -> Z -> Z -> Z -> code), valid ->
    (forall a b a' b' w' h', F inp a b out a' b' w' h' = Throw tt) ->
    pool1 pre F n sched m inp xi yi out xo yo w h = Throw m).
  { intros pre F (A1 & Ao) HF. unfold pool1, valid_roi2.
    rewrite !(valid_roi_ok m) by (apply A1 || apply Ao). cbn [andb]. rewrite has_threads_true by assumption.
    destruct (pre inp out); [|reflexivity].
    destruct (@strips_cons mem m inp xi yi w h n A1 Hn) as (s1 & l1 & E1 & V1).
    destruct (@strips_cons mem m out xo yo w h n Ao Hn) as (so & lo & Eo & Vo).
    rewrite E1, Eo. cbn [bind]. apply process_all_throw; [discriminate|].
    intros t Ht. apply zip2_in in Ht as (a & q & Ha & ->). apply HF. }
  assert (Hng : icc inp <> 1 \/ icc out <> 1 -> is_gray inp && is_gray out = false).
  { intros H. unfold is_gray, GRAY_SCALE. destruct (Z.eqb_spec (icc inp) 1), (Z.eqb_spec (icc out) 1); auto. lia. }
  repeat split.
  - intros [H|[H C]]; [apply Hbad; exact H|]. apply Hthrow; [exact H|]. intros. unfold pixelwise1_code, common_cc2.
    destruct (valid_roi2 _ _ _ _ _ _ _ _); [|reflexivity]. destruct (Z.eqb_spec (icc inp) (icc out)); [contradiction|reflexivity].
  - intros [H|[H C]] t; [apply Hbad; exact H|]. apply Hthrow; [exact H|]. intros. unfold pixelwise1_code.
    destruct (valid_roi2 _ _ _ _ _ _ _ _); [|reflexivity]. rewrite Hng by assumption. reflexivity.
  - intros lo hi [H|[[H C]|H]]; [apply Hbad; exact H| |].
    + apply Hthrow; [exact H|]. intros. unfold pixelwise1_code.
      destruct (valid_roi2 _ _ _ _ _ _ _ _); [|reflexivity]. rewrite Hng by assumption. reflexivity.
    + unfold pool_Threshold2, pool1. destruct (valid_roi2 _ _ _ _ _ _ _ _); [|reflexivity].
      destruct (has_threads n); [|reflexivity]. destruct (Z.leb_spec lo hi); [lia|reflexivity].
  - intros table [H|[H C]]; [apply Hbad; exact H|]. apply Hthrow; [exact H|]. intros. unfold pixelwise1_code, common_cc2.
    destruct (valid_roi2 _ _ _ _ _ _ _ _); [|reflexivity].
    destruct (Z.eqb_spec (Z.of_nat (length table)) 256), (Z.eqb_spec (icc inp) (icc out)); cbn [andb]; auto. lia.
  - intros [H|[H C]]; [apply Hbad; exact H|]. apply Hthrow; [exact H|]. intros. unfold ConvertToGrayScale_code.
    destruct (valid_roi2 _ _ _ _ _ _ _ _); [|reflexivity]. unfold is_gray, GRAY_SCALE.
    destruct (Z.eqb_spec (icc out) 1); [contradiction|reflexivity].
  - intros [H|[H C]]; [apply Hbad; exact H|]. apply Hthrow; [exact H|]. intros. unfold ConvertToRgb_code.
    destruct (valid_roi2 _ _ _ _ _ _ _ _); [|reflexivity]. unfold is_rgb, RGB.
    destruct (Z.eqb_spec (icc out) 3); [contradiction|reflexivity].
  - intros ch [H|[H C]]; [apply Hbad; exact H|]. apply Hthrow; [exact H|]. intros. unfold ExtractChannel_code.
    destruct (valid_roi2 _ _ _ _ _ _ _ _); [|reflexivity]. unfold is_gray, GRAY_SCALE.
    destruct (Z.eqb_spec (icc out) 1), (Z.ltb_spec ch (icc inp)); auto. lia.
  - intros [H|[H C]]; [apply Hbad; exact H|]. apply Hthrow; [exact H|]. intros. unfold RgbToBgr_code.
    destruct (valid_roi2 _ _ _ _ _ _ _ _); [|reflexivity]. unfold is_rgb, RGB.
    destruct (Z.eqb_spec (icc inp) 3), (Z.eqb_spec (icc out) 3); auto. lia.
Qed.
Example C48_one_input_rejects_case :
  area emem ga 1 1 40 3 /\ area emem grgb 0 1 40 3 /\ icc ga <> icc grgb /\
  rejected (pool_Invert 4 fair2 emem ga 1 1 grgb 0 1 40 3) emem.
Proof. split; [solve_area|]. split; [solve_area|]. split; [discriminate|vm_compute; reflexivity]. Qed.
Print Assumptions C48_one_input_rejects.

(** A pool without threads rejects every call. *)
Theorem C48_no_threads P F sched m in1 x1 y1 in2 x2 y2 out xo yo w h :
  In (P, F) ((pool_Subtract, Subtract) :: pool_two_input) ->
  rejected (P 0 sched m in1 x1 y1 in2 x2 y2 out xo yo w h) m.
Proof.
  intros HP.
  assert (E : exists opt g, P = pool2 (pixelwise2_code opt g)).
  { destruct HP as [E|HP]; [injection E as <- _; exists opt3_subtract, sub_px; reflexivity|].
    destruct (pool_two_input_model P F HP) as (g & -> & _). exists opt3, g. reflexivity. }
  destruct E as (opt & g & ->). unfold rejected, pool2.
  destruct (valid_roi3 _ _ _ _ _ _ _ _ _ _ _); reflexivity.
Qed.
Print Assumptions C48_no_threads.

(** ** C49 *)

Theorem C49_sum n m im x y w h : 0 < n -> area m im x y w h ->
  pool_Sum n m im x y w h = Sum m im x y w h.
Proof.
  intros Hn A. destruct (Z.eq_dec (icc im) 1) as [C|C]; [apply pool_Sum_ok; assumption|].
  pose proof A as [W R]. unfold Sum, is_gray, GRAY_SCALE. rewrite (valid_roi_ok m) by assumption.
  destruct (Z.eqb_spec (icc im) 1); [contradiction|].
  unfold pool_Sum. rewrite (valid_roi_ok m) by assumption. rewrite has_threads_true by assumption.
  destruct (@strips_cons mem m im x y w h n A Hn) as (s & l & E & V). rewrite E. cbn [bind results].
  unfold Sum at 1. rewrite V by (left; reflexivity). unfold is_gray, GRAY_SCALE.
  destruct (Z.eqb_spec (icc im) 1); [contradiction|]. reflexivity.
Qed.
Theorem C49_histogram n m im x y w h : 0 < n -> area m im x y w h -> icc im = 1 -> bytes m im ->
  pool_Histogram n m im x y w h = Histogram m im x y w h.
Proof.
  intros Hn A C B. apply pool_Histogram_ok; auto. apply bytes_roi; [exact B|apply A].
Qed.
Theorem C49_projection_profile n m im x y w h dir : 0 < n -> area m im x y w h -> icc im = 1 ->
  pool_ProjectionProfile n m im x y w h dir = ProjectionProfile m im x y w h dir.
Proof.
  intros Hn A C. destruct dir; [apply pool_Projection_horizontal|apply pool_Projection_vertical]; auto.
Qed.
Theorem C49_is_equal n m in1 x1 y1 in2 x2 y2 w h : 0 < n ->
  area m in1 x1 y1 w h -> area m in2 x2 y2 w h ->
  pool_IsEqual n m in1 x1 y1 in2 x2 y2 w h = IsEqual m in1 x1 y1 in2 x2 y2 w h.
Proof.
  intros Hn A1 A2. destruct (Z.eq_dec (icc in1) (icc in2)) as [C|C]; [apply pool_IsEqual_ok; assumption|].
  pose proof A1 as [W1 R1]. pose proof A2 as [W2 R2].
  assert (Hcc : common_cc2 in1 in2 = false) by (apply Z.eqb_neq; exact C).
  unfold IsEqual, pool_IsEqual, valid_roi2. rewrite !(valid_roi_ok m) by assumption. rewrite Hcc. cbn [andb].
  rewrite has_threads_true by assumption.
  destruct (@strips_cons mem m in1 x1 y1 w h n A1 Hn) as (s1 & l1 & E1 & V1).
  destruct (@strips_cons mem m in2 x2 y2 w h n A2 Hn) as (s2 & l2 & E2 & V2).
  rewrite E1, E2. cbn [bind combine results fst snd].
  unfold IsEqual at 1. destruct (valid_roi2 _ _ _ _ _ _ _ _); [|reflexivity]. rewrite Hcc. reflexivity.
Qed.
(** Invalid regions are rejected by both. *)
Theorem C49_rejects n m im x y im2 x2 y2 w h : args_u32 im x y w h -> args_u32 im2 x2 y2 w h ->
  (~ valid_arg im x y w h ->
   rejected (pool_Sum n m im x y w h) m /\ rejected (Sum m im x y w h) m /\
   rejected (pool_Histogram n m im x y w h) m /\ rejected (Histogram m im x y w h) m /\
   forall dir, rejected (pool_ProjectionProfile n m im x y w h dir) m /\ rejected (ProjectionProfile m im x y w h dir) m) /\
  (~ (valid_arg im x y w h /\ valid_arg im2 x2 y2 w h) ->
   rejected (pool_IsEqual n m im x y im2 x2 y2 w h) m /\ rejected (IsEqual m im x y im2 x2 y2 w h) m).
Proof.
  intros U U2. unfold rejected, pool_Sum, Sum, pool_Histogram, Histogram, pool_ProjectionProfile, ProjectionProfile, pool_IsEqual, IsEqual.
  split; intros H.
  - rewrite args_bad by assumption. repeat split; reflexivity.
  - rewrite bad2 by assumption. split; reflexivity.
Qed.
Example C49_case :
  pool_Sum 4 emem ga 1 1 40 3 = Sum emem ga 1 1 40 3 /\ pool_Histogram 3 emem ga 1 1 44 3 = Histogram emem ga 1 1 44 3 /\
  (forall dir, pool_ProjectionProfile 2 emem ga 1 1 40 3 dir = ProjectionProfile emem ga 1 1 40 3 dir) /\
  pool_IsEqual 3 emem ga 1 1 gb 0 1 40 3 = IsEqual emem ga 1 1 gb 0 1 40 3.
Proof.
  split; [apply C49_sum; try lia; solve_area|]. split; [apply C49_histogram; try lia; try solve_area; try reflexivity; apply emem_bytes|].
  split; [intros dir; apply C49_projection_profile; try lia; try solve_area; reflexivity|].
  apply C49_is_equal; try lia; solve_area.
Qed.
Print Assumptions C49_sum.
Print Assumptions C49_histogram.
Print Assumptions C49_projection_profile.
Print Assumptions C49_is_equal.
Print Assumptions C49_rejects.

(** ** C50 *)

Definition C50_claim : Prop :=
  forall n m im x y w h dir, 0 < n -> area m im x y w h -> icc im = 3 ->
  pool_ProjectionProfile n m im x y w h dir = ProjectionProfile m im x y w h dir.
Theorem C50_projection_profile_refuted : ~ C50_claim.
Proof.
  intros H. specialize (H 1 emem (img 1 2 1 3 6) 0 0 2 1 true).
  assert (A : area emem (img 1 2 1 3 6) 0 0 2 1) by closed_area.
  specialize (H eq_refl A eq_refl). clear A.
  assert (E1 : match pool_ProjectionProfile 1 emem (img 1 2 1 3 6) 0 0 2 1 true with Throw _ => true | _ => false end = true)
    by (clear; vm_compute; reflexivity).
  rewrite H in E1. clear H. vm_compute in E1. discriminate E1.
Qed.
Print Assumptions C50_projection_profile_refuted.
(** The vertical profile (one entry per row) is right for every colour count. *)
Theorem C50_vertical_partial n m im x y w h : 0 < n -> area m im x y w h ->
  pool_ProjectionProfile n m im x y w h false = ProjectionProfile m im x y w h false.
Proof. intros Hn A. apply pool_Projection_vertical; auto. Qed.
(** The horizontal profile of a colour image cut into rows always ends with an exception. *)
Theorem C50_horizontal_throws n m im x y w h : 0 < n -> area m im x y w h -> icc im <> 1 -> w < 2 * cacheSize ->
  rejected (pool_ProjectionProfile n m im x y w h true) m.
Proof.
  intros Hn A C Hw32. pose proof A as [W R]. assert (Hwh : 0 < w /\ 0 < h) by (destruct R; auto).
  assert (Hcc : 1 < icc im) by (destruct (wf_cc _ _ W) as [E|[E|E]]; lia).
  destruct (calc_facts w h n) as (_ & _ & In_); try lia.
  unfold pool_ProjectionProfile, rejected. rewrite (valid_roi_ok m) by assumption. rewrite has_threads_true by assumption.
  assert (Hrow : forall s, In s (calc_strips w h n) -> sw s = w).
  { unfold calc_strips, calc_count. unfold cacheSize in *.
    assert (E : (if w / 16 =? 0 then 1 else w / 16) = 1).
    { destruct (Z.eqb_spec (w / 16) 0); [reflexivity|]. lia. }
    rewrite E. replace (if n <? 1 then n else 1) with 1 by (destruct (Z.ltb_spec n 1); lia).
    replace (1 <=? (if n <? h then n else h)) with true by (symmetry; apply Z.leb_le; destruct (Z.ltb_spec n h); lia).
    intros s Hs. unfold rel_strips in Hs. apply in_map_iff in Hs as (q & <- & _). reflexivity. }
  rewrite (area_calc m im) by assumption. cbn [bind].
  destruct (choose_results (fun s => ProjectionProfile m im (sx s) (sy s) (sw s) (sh s) true) (map (place x y) (calc_strips w h n))
     (fun s p => length p = Z.to_nat (w * icc im))) as (l & El & Fl).
  { intros s Hs. apply in_map_iff in Hs as (t & <- & Ht). specialize (In_ t Ht).
    destruct (Projection_horizontal m im (sx (place x y t)) (sy (place x y t)) (sw (place x y t)) (sh (place x y t)) W) as (p & Ep & Lp & _).
    { unfold place; cbn [sx sy sw sh]. eapply sub_roi; eauto; lia. }
    exists p. split; [exact Ep|]. rewrite Lp. cbn [place sw]. rewrite Hrow by assumption. reflexivity. }
  rewrite El. cbn [bind]. unfold getProjection. inversion Fl as [E|s v ss vs Hv Hf E1 E2].
  - symmetry in E. apply map_eq_nil in E. destruct (calc_nonempty w h n); auto; lia.
  - rewrite Hv. destruct (Z.eqb_spec w (Z.of_nat (Z.to_nat (w * icc im)))); [nia|].
    cbn [concat]. rewrite app_length, Hv.
    destruct (Z.eqb_spec w (Z.of_nat (Z.to_nat (w * icc im) + length (concat vs)))); [nia|reflexivity].
Qed.
Example C50_case : area emem (img 1 5 4 3 16) 1 1 3 2 /\ icc (img 1 5 4 3 16) <> 1 /\
  pool_ProjectionProfile 2 emem (img 1 5 4 3 16) 1 1 3 2 false = ProjectionProfile emem (img 1 5 4 3 16) 1 1 3 2 false /\
  rejected (pool_ProjectionProfile 2 emem (img 1 5 4 3 16) 1 1 3 2 true) emem.
Proof.
  split; [solve_area|]. split; [discriminate|]. split; [apply C50_vertical_partial; [lia|solve_area]|].
  apply C50_horizontal_throws; [lia|solve_area|discriminate|reflexivity].
Qed.
Print Assumptions C50_vertical_partial.
Print Assumptions C50_horizontal_throws.

(** ** C51 *)

Definition C51_claim : Prop :=
  forall n m inp xi yi wi hi out xo yo wo ho, 0 < n ->
  area m inp xi yi wi hi -> area m out xo yo wo ho -> icc inp = icc out ->
  (wo - 1) * wi < W32 -> (ho - 1) * hi < W32 -> disjoint out xo yo wo ho inp xi yi wi hi ->
  agrees n (fun s => pool_Resize n s m inp xi yi wi hi out xo yo wo ho) (Resize m inp xi yi wi hi out xo yo wo ho).
(** A column of 3 pixels enlarged to 4 by two threads: the strips are 2+1 and 2+2 rows, so that row
    1 comes from row 1 instead of row 0. *)
Theorem C51_resize_refuted : ~ C51_claim.
Proof.
  intros H.
  apply (not_agrees 2 (fun s => pool_Resize 2 s emem (img 1 1 3 1 1) 0 0 1 3 (img 2 1 4 1 1) 0 0 1 4)
           (Resize emem (img 1 1 3 1 1) 0 0 1 3 (img 2 1 4 1 1) 0 0 1 4) fair2 (2, 1)).
  - clear H. vm_compute. reflexivity.
  - apply H; clear H; try lia; try solve_area; try reflexivity; solve_disjoint.
Qed.
Print Assumptions C51_resize_refuted.

(** Resize agrees when the number of strips divides both extents along the axis that is cut: [l] are
    the strips chosen for the smaller of the two sizes. *)
Theorem C51_resize_partial n l m inp xi yi wi hi out xo yo wo ho : 0 < n ->
  area m inp xi yi wi hi -> area m out xo yo wo ho -> icc inp = icc out ->
  (wo - 1) * wi < W32 -> (ho - 1) * hi < W32 -> disjoint out xo yo wo ho inp xi yi wi hi ->
  @area_calculate mem 0 0 (Z.min wi wo) (Z.min hi ho) n = Ok l ->
  (if rows_only l then (Z.of_nat (length l) | hi) /\ (Z.of_nat (length l) | ho)
   else (Z.of_nat (length l) | wi) /\ (Z.of_nat (length l) | wo)) ->
  agrees n (fun s => pool_Resize n s m inp xi yi wi hi out xo yo wo ho) (Resize m inp xi yi wi hi out xo yo wo ho).
Proof.
  intros Hn A1 Ao C Bw Bh D El Hd.
  eapply agrees_of_writes; [exact Ao|apply pool_Resize_schedules; auto|apply C21_resize; auto].
  pose proof A1 as [W1 R1]. pose proof Ao as [Wo Ro].
  destruct (wf_bounds _ _ W1) as (B1 & B2 & _). destruct R1, Ro.
  rewrite area_calculate_rel in El by lia. injection El as <-. unfold calc_strips in Hd.
  pose proof (calc_count_ok (Z.min wi wo) (Z.min hi ho) n ltac:(lia) ltac:(lia) Hn) as [K1 K2].
  destruct (calc_count (Z.min wi wo) (Z.min hi ho) n) as [cnt ax]. cbn [fst snd] in *.
  rewrite map_length, rel_strips_length in Hd by lia. rewrite rows_only_rel in Hd by lia.
  destruct ax; cbn [orb] in Hd; [exact Hd|].
  destruct (Z.eqb_spec cnt 1) as [E|]; [rewrite E; split; apply Z.divide_1_l|exact Hd].
Qed.
(** 4 x 6 pixels reduced to 4 x 2 by two threads, and the case of one thread. *)
Example C51_case : agrees 2 (fun s => pool_Resize 2 s emem (img 1 5 7 1 8) 1 1 4 6 (img 2 4 3 1 4) 0 1 4 2)
    (Resize emem (img 1 5 7 1 8) 1 1 4 6 (img 2 4 3 1 4) 0 1 4 2).
Proof.
  refine (C51_resize_partial 2 [mkStrip 0 0 4 1; mkStrip 0 1 4 1] _ _ _ _ _ _ _ _ _ _ _ _ _ _ _ _ _ _ _ _);
    try lia; try solve_area; try reflexivity; try solve_disjoint.
  cbn. split; [exists 3|exists 1]; reflexivity.
Qed.
Theorem C51_one_thread_partial m inp xi yi wi hi out xo yo wo ho :
  area m inp xi yi wi hi -> area m out xo yo wo ho -> icc inp = icc out ->
  (wo - 1) * wi < W32 -> (ho - 1) * hi < W32 -> disjoint out xo yo wo ho inp xi yi wi hi ->
  agrees 1 (fun s => pool_Resize 1 s m inp xi yi wi hi out xo yo wo ho) (Resize m inp xi yi wi hi out xo yo wo ho).
Proof.
  intros A1 Ao C Bw Bh D. pose proof A1 as [W1 R1]. pose proof Ao as [Wo Ro].
  destruct (wf_bounds _ _ W1) as (B1 & B2 & _). destruct R1, Ro.
  refine (C51_resize_partial 1 _ m inp xi yi wi hi out xo yo wo ho _ A1 Ao C Bw Bh D _ _);
    [lia|apply area_calculate_rel; lia|].
  pose proof (calc_strips_length (Z.min wi wo) (Z.min hi ho) 1 ltac:(lia) ltac:(lia) ltac:(lia)).
  rewrite map_length. replace (Z.of_nat (length (calc_strips (Z.min wi wo) (Z.min hi ho) 1))) with 1 by lia.
  destruct (rows_only _); split; apply Z.divide_1_l.
Qed.
Print Assumptions C51_resize_partial.
Print Assumptions C51_one_thread_partial.
