(** Properties C166 to C168: Normalize and GammaCorrection of the function pool, GammaCorrection
    on the devices, compared with the functions of one thread. *)
From Coq Require Import ZArith List Bool Reals Lia Lra.
From Verif Require Import Base Image Spec BaseProofs ImgFun ImgLemmas ImgProofs ConvProofs ReduceProofs SafeProofs PropsA PropsB.
From Verif Require Import FuncPool FuncPoolProofs StripProofs TileProofs PoolReduce PropsG.
From Verif Require Import Double DoubleProofs Tone ToneProofs OtsuProofs PropsH.
From Verif Require Import Cuda CudaProofs CudaRuns CudaSums PropsU OpenCL OpenCLProofs OpenCLRuns OpenCLSums PropsV.
From Verif Require Import ToneMore.
Import ListNotations.
Open Scope Z_scope.

Ltac Zify.zify_post_hook ::= idtac.

(** ** C166: Function_Pool::Normalize *)
Definition C166_claim : Prop := forall junk n m inp xi yi out xo yo w h,
  (forall d, exists z, junk d = Ok z) -> 0 < n ->
  area m inp xi yi w h -> area m out xo yo w h -> icc inp = icc out -> bytes m inp ->
  disjoint out xo yo w h inp xi yi w h ->
  agrees n (fun s => pool_Normalize junk n s m inp xi yi out xo yo w h) (Normalize junk m inp xi yi out xo yo w h).
(** One pixel of three channels: Histogram, which the pool starts with, reads past the image. *)
Theorem C166_colour_refuted : ~ C166_claim.
Proof.
  intros H. set (m := fun b : Z => mkBlock 3 (fun _ => 0)).
  destruct (H (fun _ => Ok 0) 1 m (img 1 1 1 3 3) 0 0 (img 2 1 1 3 3) 0 0 1 1) as [A _]; clear H.
  - intros d. exists 0. reflexivity.
  - lia.
  - solve_area.
  - solve_area.
  - reflexivity.
  - intros x y c _ _ _. cbn. lia.
  - solve_disjoint.
  - assert (E : pool_Normalize (fun _ => Ok 0) 1 [] m (img 1 1 1 3 3) 0 0 (img 2 1 1 3 3) 0 0 1 1 = UB) by (vm_compute; reflexivity).
    destruct (A []) as [F|(M & F & _)]; rewrite E in F; discriminate.
Qed.
Print Assumptions C166_colour_refuted.

Definition seen (hist : list Z) (i : nat) : Prop := 0 < nth i hist 0.
Lemma range_fold hist l : forall s, let r := fold_left
    (fun s i => if 0 <? nth i hist 0
       then (if Z.of_nat i <? fst s then Z.of_nat i else fst s, if snd s <? Z.of_nat i then Z.of_nat i else snd s)
       else s) l s in
  (forall i, In i l -> seen hist i -> fst r <= Z.of_nat i <= snd r) /\ fst r <= fst s /\ snd s <= snd r /\
  (fst r = fst s \/ exists i, In i l /\ seen hist i /\ fst r = Z.of_nat i) /\
  (snd r = snd s \/ exists i, In i l /\ seen hist i /\ snd r = Z.of_nat i).
Proof.
  induction l as [|k l IH]; intros s; cbn [fold_left].
  - split; [intros i []|]. split; [lia|]. split; [lia|]. auto.
  - match goal with |- context [fold_left _ l ?t] => specialize (IH t); set (s' := t) in * end.
    cbv zeta in *. destruct IH as (H1 & H2 & H3 & H4 & H5).
    assert (Hs : fst s' <= fst s /\ snd s <= snd s' /\ (seen hist k -> fst s' <= Z.of_nat k <= snd s') /\
      (fst s' = fst s \/ seen hist k /\ fst s' = Z.of_nat k) /\ (snd s' = snd s \/ seen hist k /\ snd s' = Z.of_nat k)).
    { unfold s'. destruct (Z.ltb_spec 0 (nth k hist 0)) as [P|P]; cbn [fst snd].
      - fold (seen hist k) in P. destruct (Z.ltb_spec (Z.of_nat k) (fst s)), (Z.ltb_spec (snd s) (Z.of_nat k)); repeat split; auto; lia.
      - repeat split; auto; unfold seen in *; lia. }
    destruct Hs as (G1 & G2 & G3 & G4 & G5). split; [|split; [|split; [|split]]].
    + intros i [<-|Hi] P; [specialize (G3 P); lia|apply H1; assumption].
    + lia.
    + lia.
    + destruct H4 as [H4|(i & Hi & P & E)]; [|right; exists i; cbn [In]; auto].
      destruct G4 as [G4|(P & E)]; [left; congruence|right; exists k; cbn [In]; split; [auto|]; split; [exact P|congruence]].
    + destruct H5 as [H5|(i & Hi & P & E)]; [|right; exists i; cbn [In]; auto].
      destruct G5 as [G5|(P & E)]; [left; congruence|right; exists k; cbn [In]; split; [auto|]; split; [exact P|congruence]].
Qed.
Lemma hist_range_is hist lo hi : 0 <= lo < 256 -> 0 <= hi < 256 -> 0 < entry hist lo -> 0 < entry hist hi ->
  (forall v, 0 <= v < 256 -> 0 < entry hist v -> lo <= v <= hi) -> hist_range hist = (lo, hi).
Proof.
  intros Bl Bh Pl Ph H. unfold hist_range. pose proof (range_fold hist (seq 0 256) (255, 0)) as G. cbv zeta in G.
  destruct (fold_left _ (seq 0 256) (255, 0)) as [a b]. cbn [fst snd] in G. destruct G as (G1 & G2 & G3 & G4 & G5).
  assert (In_ : forall v, 0 <= v < 256 -> In (Z.to_nat v) (seq 0 256)) by (intros v Hv; apply in_seq; lia).
  pose proof (G1 (Z.to_nat lo) (In_ lo Bl) Pl) as E1. pose proof (G1 (Z.to_nat hi) (In_ hi Bh) Ph) as E2.
  rewrite Z2Nat.id in E1, E2 by lia.
  assert (K : forall i, In i (seq 0 256) -> seen hist i -> lo <= Z.of_nat i <= hi).
  { intros i Hi P. apply in_seq in Hi. apply H; [lia|]. unfold entry. rewrite Nat2Z.id. exact P. }
  f_equal.
  - destruct G4 as [->|(i & Hi & P & ->)]; [lia|]. specialize (K i Hi P). lia.
  - destruct G5 as [->|(i & Hi & P & ->)]; [lia|]. specialize (K i Hi P). lia.
Qed.
Lemma zsum_nonneg_all f : forall n, 0 <= n -> (forall k, 0 <= k < n -> 0 <= f k) -> 0 <= zsum n f.
Proof.
  intros n Hn. pattern n. apply natlike_ind; [| |exact Hn]; clear n Hn.
  - intros _. rewrite zsum_0. lia.
  - intros n Hn IH Hf. rewrite <- Z.add_1_r, zsum_S by exact Hn. pose proof (Hf n ltac:(lia)). pose proof (IH (fun k Hk => Hf k ltac:(lia))). lia.
Qed.
Lemma zsum_pos f : forall n, 0 <= n -> (forall k, 0 <= k < n -> 0 <= f k) ->
  (0 < zsum n f <-> exists k, 0 <= k < n /\ 0 < f k).
Proof.
  intros n Hn. pattern n. apply natlike_ind; [| |exact Hn]; clear n Hn.
  - intros _. rewrite zsum_0. split; [lia|]. intros (k & Hk & _). lia.
  - intros n Hn IH Hf. rewrite <- Z.add_1_r, zsum_S by exact Hn.
    specialize (IH (fun k Hk => Hf k ltac:(lia))). pose proof (Hf n ltac:(lia)) as H0.
    pose proof (zsum_nonneg_all f n Hn (fun k Hk => Hf k ltac:(lia))).
    split.
    + intros H1. destruct (Z.lt_ge_cases 0 (f n)) as [P|P]; [exists n; split; [lia|exact P]|].
      destruct (proj1 IH ltac:(lia)) as (k & Hk & Pk). exists k. split; [lia|exact Pk].
    + intros (k & Hk & Pk). destruct (Z.eq_dec k n) as [->|]; [lia|]. assert (0 < zsum n f) by (apply IH; exists k; split; [lia|exact Pk]). lia.
Qed.
Lemma count_roi_pos w h P : 0 <= w -> 0 <= h -> (0 < count_roi w h P <-> exists i j, 0 <= i < w /\ 0 <= j < h /\ P i j = true).
Proof.
  intros Hw Hh. unfold count_roi. rewrite zsum_pos; [|exact Hh|intros; apply zcount_nonneg; exact Hw]. split.
  - intros (j & Hj & H). apply zcount_pos_witness in H as (i & Hi & E); [|exact Hw]. exists i, j. auto.
  - intros (i & j & Hi & Hj & E). exists j. split; [exact Hj|]. apply (zcount_pos w _ i); assumption.
Qed.

Lemma agrees_same n call r r' : agrees n call r -> (forall M, same_memory M r -> same_memory M r') -> agrees n call r'.
Proof.
  intros [A B] H. split; [|exact B]. intros s. destruct (A s) as [E|(M & E & HM)]; [left; exact E|right; exists M; split; [exact E|auto]].
Qed.
Lemma same_memory_writes M (r r' : res mem mem) m out x y w h f f' :
  writes r m out x y w h f -> writes r' m out x y w h f' -> (forall i j c, inside w h (icc out) i j c -> f i j c = f' i j c) ->
  same_memory M r -> same_memory M r'.
Proof.
  intros (m1 & E1 & V1 & L1 & F1) (m2 & E2 & V2 & L2 & F2) Hf (m3 & E3 & G & L). rewrite E1 in E3. injection E3 as <-.
  exists m2. split; [exact E2|]. split.
  - intros p. rewrite G. destruct (roi_cell_dec out x y w h p) as [(i & j & c & Hi & <-)|H].
    + specialize (V1 i j c Hi). specialize (V2 i j c Hi). unfold pixel in *. rewrite V1, V2. apply Hf, Hi.
    + rewrite F1, F2; [reflexivity| |]; intros i j c Hi He; exact (H i j c Hi (eq_sym He)).
  - intros b. rewrite L, L1, L2. reflexivity.
Qed.
Lemma agrees_ext n call call' r : (forall s, call s = call' s) -> agrees n call r -> agrees n call' r.
Proof.
  intros H [A (K & B)]. split.
  - intros s. rewrite <- H. apply A.
  - exists K. intros s Hs. rewrite <- H. apply B, Hs.
Qed.
Lemma agrees_alone n (r : res mem mem) M : r = Ok M -> agrees n (fun _ => r) r.
Proof.
  intros E. split.
  - intros _. right. exists M. split; [exact E|]. exists M. auto.
  - exists 0%nat. intros _ _. rewrite E. discriminate.
Qed.
(** The table for the range 0..255. *)
Lemma identity_table junk : norm_table junk 0 255 = Ok (map Z.of_nat (seq 0 256)).
Proof.
  assert (T : forallb (fun i => match dtrunc (norm_value 0 255 i) with Some z => z =? i | None => false end) (map Z.of_nat (seq 0 256)) = true)
    by (vm_compute; reflexivity).
  rewrite forallb_forall in T. unfold norm_table.
  rewrite (table_ok _ (fun i => i)).
  - reflexivity.
  - intros i Hi. assert (Hin : In i (map Z.of_nat (seq 0 256))).
    { apply in_map_iff. exists (Z.to_nat i). split; [apply Z2Nat.id; lia|apply in_seq; lia]. }
    specialize (T i Hin). cbv beta in T.
    unfold cast_to. destruct (dtrunc _) as [z|]; [|discriminate]. apply Z.eqb_eq in T. subst z.
    replace ((0 <=? i) && (i <? 256)) with true; [reflexivity|]. symmetry. apply andb_true_iff. lia.
Qed.

(** Gray-scale images: the result of the pool is that of one thread, for any number of threads. *)
Theorem C166_normalize_partial junk n m inp xi yi out xo yo w h :
  (forall d, exists z, junk d = Ok z) -> 0 < n ->
  area m inp xi yi w h -> area m out xo yo w h -> icc inp = 1 -> icc out = 1 -> bytes m inp ->
  disjoint out xo yo w h inp xi yi w h ->
  agrees n (fun s => pool_Normalize junk n s m inp xi yi out xo yo w h) (Normalize junk m inp xi yi out xo yo w h).
Proof.
  intros Hj Hn A1 Ao C Co B D. pose proof (hazard_of_disjoint _ _ _ _ _ _ _ _ D) as N.
  assert (Ecc : icc inp = icc out) by congruence.
  assert (BR : roi_bytes m inp xi yi w h) by (intros i j c Hin; apply (bytes_at m inp xi yi w h); auto; apply A1).
  destruct (min_max_ok m inp xi yi w h A1 BR) as (lo & hi & He & Hb & (i1 & j1 & c1 & Hin1 & Hv1) & (i2 & j2 & c2 & Hin2 & Hv2)).
  pose proof (BR i1 j1 c1 Hin1) as Bl. pose proof (BR i2 j2 c2 Hin2) as Bh. rewrite Hv1 in Bl. rewrite Hv2 in Bh.
  destruct (C16_histogram m inp xi yi w h A1 C B) as (hist & Eh & Lh & Vh & _).
  assert (Hw : 0 <= w) by (destruct A1 as [_ R]; apply Z.lt_le_incl; apply R).
  assert (Hh : 0 <= h) by (destruct A1 as [_ R]; apply Z.lt_le_incl; apply R).
  assert (Er : hist_range hist = (lo, hi)).
  { apply hist_range_is; [exact Bl|exact Bh| | |].
    - rewrite Vh by exact Bl. apply count_roi_pos; [exact Hw|exact Hh|]. destruct Hin1 as (? & ? & Hc). rewrite C in Hc. assert (c1 = 0) by lia. subst c1.
      exists i1, j1. split; [assumption|]. split; [assumption|]. apply Z.eqb_eq. exact Hv1.
    - rewrite Vh by exact Bh. apply count_roi_pos; [exact Hw|exact Hh|]. destruct Hin2 as (? & ? & Hc). rewrite C in Hc. assert (c2 = 0) by lia. subst c2.
      exists i2, j2. split; [assumption|]. split; [assumption|]. apply Z.eqb_eq. exact Hv2.
    - intros v Hv P. rewrite Vh in P by exact Hv. apply count_roi_pos in P; [|exact Hw|exact Hh]. destruct P as (i & j & Hi & Hjj & E).
      apply Z.eqb_eq in E. rewrite <- E. apply Hb. unfold inside. lia. }
  assert (Ep : forall s, pool_Normalize junk n s m inp xi yi out xo yo w h =
     if hi <=? lo then Copy m inp xi yi out xo yo w h
     else do table <- norm_table junk lo hi; pool_LookupTable table n s m inp xi yi out xo yo w h).
  { intros s. unfold pool_Normalize. rewrite (C49_histogram n m inp xi yi w h Hn A1 C B), Eh. cbn [bind]. rewrite Lh.
    change (Z.of_nat 256 =? 256) with true. cbv iota. rewrite Er. reflexivity. }
  assert (Ec : Normalize junk m inp xi yi out xo yo w h =
     if ((lo =? 0) && (hi =? 255)) || (lo =? hi) then Copy m inp xi yi out xo yo w h
     else do table <- norm_table junk lo hi; LookupTable table m inp xi yi out xo yo w h).
  { unfold Normalize, valid_roi2, common_cc2. destruct A1 as [W1 R1], Ao as [Wo Ro].
    rewrite (valid_roi_ok m inp) by assumption. rewrite (valid_roi_ok m out) by assumption. cbn [andb].
    apply Z.eqb_eq in Ecc. rewrite Ecc, He. reflexivity. }
  pose proof (C03_copy m inp xi yi out xo yo w h A1 Ao Ecc D) as Hcopy.
  assert (Hle : lo <= hi) by (pose proof (Hb i1 j1 c1 Hin1); lia).
  rewrite Ec. eapply agrees_ext; [intros s; symmetry; apply Ep|].
  destruct (Z.leb_spec hi lo) as [L|L].
  - assert (El : (lo =? hi) = true) by (apply Z.eqb_eq; lia). rewrite El, orb_true_r. destruct Hcopy as (M & E & _). eapply agrees_alone. exact E.
  - destruct (Z.eqb_spec lo hi) as [|_]; [lia|]. rewrite orb_false_r.
    destruct ((lo =? 0) && (hi =? 255)) eqn:E.
    + apply andb_prop in E as [E1 E2]. apply Z.eqb_eq in E1, E2. rewrite E1, E2, identity_table. cbn [bind].
      set (table := map Z.of_nat (seq 0 256)). assert (Lt : length table = 256%nat) by reflexivity.
      eapply agrees_same; [apply (C48_lookup_table table n m inp xi yi out xo yo w h); auto|]. intros M.
      eapply same_memory_writes; [apply C03_lookup_table; auto|exact Hcopy|]. intros i j c Hi. cbv beta.
      rewrite <- Ecc in Hi. specialize (BR i j c Hi). unfold table.
      set (v := pixel m inp (xi + i) (yi + j) c) in *. clearbody v.
      rewrite (nth_indep _ 0 (Z.of_nat 0)) by (rewrite map_length, seq_length; lia). rewrite map_nth, seq_nth by lia. lia.
    + destruct (norm_table_ok junk lo hi Hj ltac:(lia)) as (table & Et & Hlen & _).
      { apply andb_false_elim in E. destruct E as [E|E]; apply Z.eqb_neq in E; lia. }
      rewrite Et. cbn [bind]. apply C48_lookup_table; auto.
Qed.

Theorem C166_rejects junk n s m inp xi yi out xo yo w h : args_u32 inp xi yi w h -> ~ valid_arg inp xi yi w h ->
  rejected (pool_Normalize junk n s m inp xi yi out xo yo w h) m.
Proof.
  intros U V. unfold rejected, pool_Normalize, pool_Histogram. rewrite (args_bad _ _ _ _ _ U V). reflexivity.
Qed.
(** Six samples, three threads. *)
Example C166_case : agrees 3 (fun s => pool_Normalize (fun _ => Ok 77) 3 s steps (img 1 3 2 1 3) 0 0 (img 2 4 3 1 8) 1 1 3 2)
  (Normalize (fun _ => Ok 77) steps (img 1 3 2 1 3) 0 0 (img 2 4 3 1 8) 1 1 3 2) /\ hist_range (map (fun i => if i =? 7 then 3 else if i =? 9 then 1 else 0) (map Z.of_nat (seq 0 256))) = (7, 9).
Proof.
  split; [|vm_compute; reflexivity]. apply C166_normalize_partial; try lia; try reflexivity; try solve_area.
  - intros d. exists 77. reflexivity.
  - apply steps_bytes.
  - solve_disjoint.
Qed.
Print Assumptions C166_normalize_partial.
Print Assumptions C166_rejects.

(** ** C167: Function_Pool::GammaCorrection *)
Lemma table_sign pow m a gamma table : gamma_table pow m a gamma = Ok table -> negb (dlt a (dofZ 0) || dlt gamma (dofZ 0)) = true.
Proof. unfold gamma_table. destruct (negb _); [reflexivity|discriminate]. Qed.
(** [ra] is the value of the coefficient, [p i] that of pow( i / 255, gamma ). *)
Definition gamma_args (pow : double -> double -> double) (a gamma : double) (ra : R) (p : Z -> R) : Prop :=
  value_is a ra /\ (0 <= ra)%R /\ dlt gamma (dofZ 0) = false /\
  (forall i, 0 <= i < 256 -> value_is (pow (ddiv (dofZ i) (dofZ 255)) gamma) (p i) /\ (0 <= p i <= 1)%R).
Lemma gamma_args_table pow m a gamma ra p : gamma_args pow a gamma ra p ->
  exists table, gamma_table pow m a gamma = Ok table /\ length table = 256%nat.
Proof. intros (Ha & Ha0 & Hg & Hp). destruct (C29_gamma_table pow m a gamma ra p Ha Ha0 Hg Hp) as (table & E & L & _). eauto. Qed.
Lemma Gamma_cpu pow m a gamma table inp xi yi out xo yo w h : gamma_table pow m a gamma = Ok table ->
  area m inp xi yi w h -> area m out xo yo w h ->
  GammaCorrection pow a gamma m inp xi yi out xo yo w h = LookupTable table m inp xi yi out xo yo w h.
Proof.
  intros Et A1 Ao. unfold GammaCorrection, valid_roi2. rewrite (valid_roi_ok m inp) by apply A1. rewrite (valid_roi_ok m out) by apply Ao.
  rewrite Et. reflexivity.
Qed.
Theorem C167_gamma pow a gamma ra p n m inp xi yi out xo yo w h : gamma_args pow a gamma ra p -> 0 < n ->
  area m inp xi yi w h -> area m out xo yo w h -> icc inp = icc out -> bytes m inp -> no_hazard out xo yo inp xi yi w h ->
  agrees n (fun s => pool_GammaCorrection pow a gamma n s m inp xi yi out xo yo w h) (GammaCorrection pow a gamma m inp xi yi out xo yo w h).
Proof.
  intros G Hn A1 Ao C B N. destruct (gamma_args_table pow m a gamma ra p G) as (table & Et & L).
  rewrite (Gamma_cpu pow m a gamma table) by assumption.
  eapply agrees_ext; [|apply (C48_lookup_table table n m inp xi yi out xo yo w h); assumption].
  intros s. unfold pool_GammaCorrection, pool_LookupTable, Gamma_code, pool1. rewrite Et, (table_sign _ _ _ _ _ Et). reflexivity.
Qed.
(** Negative coefficients and invalid regions are refused, for every number of threads and every schedule. *)
Theorem C167_rejects pow a gamma n s m inp xi yi out xo yo w h : args_u32 inp xi yi w h -> args_u32 out xo yo w h ->
  ~ (valid_arg inp xi yi w h /\ valid_arg out xo yo w h) \/ dlt a (dofZ 0) = true \/ dlt gamma (dofZ 0) = true ->
  rejected (pool_GammaCorrection pow a gamma n s m inp xi yi out xo yo w h) m /\
  rejected (GammaCorrection pow a gamma m inp xi yi out xo yo w h) m.
Proof.
  intros U1 Uo H. unfold rejected, pool_GammaCorrection, pool1, GammaCorrection. destruct H as [H|H].
  - rewrite (bad2 _ _ _ _ _ _ _ _ U1 Uo H). split; reflexivity.
  - assert (E : negb (dlt a (dofZ 0) || dlt gamma (dofZ 0)) = false) by (destruct H as [-> | ->]; rewrite ?orb_true_r; reflexivity).
    unfold gamma_table. rewrite E. destruct (valid_roi2 _ _ _ _ _ _ _ _); [|split; reflexivity]. destruct (has_threads n); split; reflexivity.
Qed.
Lemma plain_args : gamma_args (fun x _ => x) (dofZ 2) (dofZ 1) 2 (fun i => rnd (IZR i / IZR 255)).
Proof.
  split; [apply isR_ofZ; lia|]. split; [lra|]. split; [reflexivity|].
  intros i Hi. destruct (divZ_bound i 255 0) as (D & N & B); try lia.
  split; [exact D|]. rewrite Rabs_pos_eq in B by exact N. simpl in B. lra.
Qed.
(** gamma 1, factor 2, colours; three threads. *)
Example C167_case : agrees 3 (fun s => pool_GammaCorrection (fun x _ => x) (dofZ 2) (dofZ 1) 3 s emem (img 1 5 4 3 16) 1 1 (img 2 4 3 3 12) 0 1 3 2)
  (GammaCorrection (fun x _ => x) (dofZ 2) (dofZ 1) emem (img 1 5 4 3 16) 1 1 (img 2 4 3 3 12) 0 1 3 2).
Proof.
  eapply C167_gamma; [apply plain_args|lia|solve_area|solve_area|reflexivity|apply emem_bytes|apply hazard_of_disjoint; solve_disjoint].
Qed.
Print Assumptions C167_gamma.
Print Assumptions C167_rejects.

(** ** C168: GammaCorrection on the devices *)
(** A finished call on the device leaves the memory that the processor version leaves. *)
Definition same_as (fits : Prop) (m : mem) (cpu : res mem mem) (dev : list nat -> res mem (mem * unit)) : Prop :=
  exists M, cpu = Ok M /\ device_run fits m dev (fun r => forall q, get (fst r) q = get M q).
Definition C168_claim : Prop := forall pow a gamma ra p d m inp xi yi out xo yo w h b, gamma_args pow a gamma ra p -> device_ok d ->
  area m inp xi yi w h -> area m out xo yo w h -> icc inp = icc out -> bytes m inp -> disjoint out xo yo w h inp xi yi w h -> len m b = 0 ->
  same_as (comfortable d (w * icc out) h) m (GammaCorrection pow a gamma m inp xi yi out xo yo w h)
    (fun s => cuda_GammaCorrection pow a gamma d (Some b) s m inp xi yi out xo yo w h).
(** The processor corrects images of three channels, the devices refuse them. *)
Theorem C168_colour_refuted : ~ C168_claim.
Proof.
  intros H. destruct (H (fun x _ => x) (dofZ 2) (dofZ 1) 2%R (fun i => rnd (IZR i / IZR 255)) gpu emem8 (img 1 5 4 3 16) 1 1 (img 2 4 3 3 12) 0 1 3 2 9 plain_args gpu_ok)
    as (M & _ & R); clear H.
  - solve_area.
  - solve_area.
  - reflexivity.
  - apply emem8_bytes.
  - solve_disjoint.
  - reflexivity.
  - apply (device_run_throw _ _ _ _ [] emem8 R).
    + apply gpu_comfortable; cbn; lia.
    + unfold cuda_GammaCorrection. reflexivity.
Qed.
Theorem C168_colours_refused pow a gamma m inp xi yi out xo yo w h : icc inp <> 1 \/ icc out <> 1 ->
  (forall d fresh s, cuda_GammaCorrection pow a gamma d fresh s m inp xi yi out xo yo w h = Throw m) /\
  (forall d fresh s, cl_GammaCorrection pow a gamma d fresh s m inp xi yi out xo yo w h = Throw m).
Proof.
  intros H. assert (E : is_gray inp && is_gray out = false).
  { unfold is_gray, GRAY_SCALE. destruct H as [H|H]; apply Z.eqb_neq in H; rewrite H; rewrite ?andb_false_r; reflexivity. }
  split; intros; unfold cuda_GammaCorrection, cl_GammaCorrection; rewrite E; destruct (valid_roi2 _ _ _ _ _ _ _ _); reflexivity.
Qed.
Lemma same_as_writes fits m cpu dev out x y w h f :
  writes cpu m out x y w h f -> device_run fits m dev (fun r => writes (@Ok mem mem (fst r)) m out x y w h f) -> same_as fits m cpu dev.
Proof.
  intros H1 H2. pose proof H1 as (M & E & _). exists M. split; [exact E|]. eapply device_run_weak; [|exact H2].
  intros r H3. cbv beta in H3. destruct (writes_agree cpu m out x y w h f f (fst r) H1 H3 (fun _ _ _ _ => eq_refl)) as (M2 & E2 & Hp).
  rewrite E in E2. injection E2 as <-. exact Hp.
Qed.
Lemma device_run_ext {A} fits m (call call' : list nat -> res mem A) Q : (forall s, call s = call' s) -> device_run fits m call Q -> device_run fits m call' Q.
Proof.
  intros H [(n & A1 & B1)|[A1 B1]].
  - left. exists n. split.
    + intros s. rewrite <- H. apply A1.
    + destruct B1 as (K & B1). exists K. intros s Hs. rewrite <- H. apply B1, Hs.
  - right. split; [exact A1|]. intros s. rewrite <- H. apply B1.
Qed.
Theorem C168_cuda_partial pow a gamma ra p d m inp xi yi out xo yo w h b : gamma_args pow a gamma ra p -> device_ok d ->
  area m inp xi yi w h -> area m out xo yo w h -> icc inp = 1 -> icc out = 1 -> bytes m inp -> no_hazard out xo yo inp xi yi w h -> len m b = 0 ->
  same_as (comfortable d w h) m (GammaCorrection pow a gamma m inp xi yi out xo yo w h)
    (fun s => cuda_GammaCorrection pow a gamma d (Some b) s m inp xi yi out xo yo w h).
Proof.
  intros G Hd A1 Ao C Co B N Hb. destruct (gamma_args_table pow m a gamma ra p G) as (table & Et & L). assert (Ecc : icc inp = icc out) by congruence.
  rewrite (Gamma_cpu pow m a gamma table) by assumption.
  eapply same_as_writes; [apply C03_lookup_table; assumption|].
  eapply device_run_ext; [|replace w with (w * icc out) at 1 by lia; apply (C125_lookup_table table d m inp xi yi out xo yo w h b); assumption].
  intros s. unfold cuda_GammaCorrection, valid_roi2, is_gray, GRAY_SCALE. rewrite (valid_roi_ok m inp) by apply A1. rewrite (valid_roi_ok m out) by apply Ao.
  rewrite C, Co, Et. reflexivity.
Qed.
(** OpenCL: LookupTable reads from the transposed start point (C134), so regions on the diagonal. *)
Theorem C168_opencl_partial pow a gamma ra p d m inp s0 out xo yo w h b : gamma_args pow a gamma ra p -> cl_ok d ->
  area m inp s0 s0 w h -> area m out xo yo w h -> icc inp = 1 -> icc out = 1 -> bytes m inp -> no_hazard out xo yo inp s0 s0 w h -> len m b = 0 ->
  same_as (cl_roomy d) m (GammaCorrection pow a gamma m inp s0 s0 out xo yo w h)
    (fun s => cl_GammaCorrection pow a gamma d (Some b) s m inp s0 s0 out xo yo w h).
Proof.
  intros G Hd A1 Ao C Co B N Hb. destruct (gamma_args_table pow m a gamma ra p G) as (table & Et & L). assert (Ecc : icc inp = icc out) by congruence.
  rewrite (Gamma_cpu pow m a gamma table) by assumption.
  eapply same_as_writes; [apply C03_lookup_table; assumption|].
  eapply device_run_ext; [|apply (C134_lookup_partial table d m inp s0 out xo yo w h b); assumption].
  intros s. unfold cl_GammaCorrection, valid_roi2, is_gray, GRAY_SCALE. rewrite (valid_roi_ok m inp) by apply A1. rewrite (valid_roi_ok m out) by apply Ao.
  rewrite C, Co, Et. reflexivity.
Qed.
Theorem C168_rejects pow a gamma d d' fresh s m inp xi yi out xo yo w h : args_u32 inp xi yi w h -> args_u32 out xo yo w h ->
  ~ (valid_arg inp xi yi w h /\ valid_arg out xo yo w h) \/ dlt a (dofZ 0) = true \/ dlt gamma (dofZ 0) = true ->
  cuda_GammaCorrection pow a gamma d fresh s m inp xi yi out xo yo w h = Throw m /\
  cl_GammaCorrection pow a gamma d' fresh s m inp xi yi out xo yo w h = Throw m.
Proof.
  intros U1 Uo H. unfold cuda_GammaCorrection, cl_GammaCorrection. destruct H as [H|H].
  - rewrite (bad2 _ _ _ _ _ _ _ _ U1 Uo H). split; reflexivity.
  - assert (E : negb (dlt a (dofZ 0) || dlt gamma (dofZ 0)) = false) by (destruct H as [-> | ->]; rewrite ?orb_true_r; reflexivity).
    unfold gamma_table. rewrite E. destruct (valid_roi2 _ _ _ _ _ _ _ _); [|split; reflexivity]. destruct (is_gray inp && is_gray out); split; reflexivity.
Qed.
Example C168_case : same_as (comfortable gpu 3 2) emem8 (GammaCorrection (fun x _ => x) (dofZ 2) (dofZ 1) emem8 (img 1 5 4 1 8) 1 1 (img 2 4 3 1 4) 0 1 3 2)
    (fun s => cuda_GammaCorrection (fun x _ => x) (dofZ 2) (dofZ 1) gpu (Some 9) s emem8 (img 1 5 4 1 8) 1 1 (img 2 4 3 1 4) 0 1 3 2) /\
  same_as (cl_roomy cl256) emem8 (GammaCorrection (fun x _ => x) (dofZ 2) (dofZ 1) emem8 (img 1 5 4 1 8) 1 1 (img 2 4 3 1 4) 0 1 3 2)
    (fun s => cl_GammaCorrection (fun x _ => x) (dofZ 2) (dofZ 1) cl256 (Some 9) s emem8 (img 1 5 4 1 8) 1 1 (img 2 4 3 1 4) 0 1 3 2).
Proof.
  split; [eapply C168_cuda_partial|eapply C168_opencl_partial]; try (apply plain_args); try solve_area; try reflexivity; try (apply emem8_bytes);
    try (apply hazard_of_disjoint; solve_disjoint); [apply gpu_ok|apply cl256_ok].
Qed.
Print Assumptions C168_colour_refuted.
Print Assumptions C168_colours_refused.
Print Assumptions C168_cuda_partial.
Print Assumptions C168_opencl_partial.
Print Assumptions C168_rejects.
