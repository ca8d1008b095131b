(** Proofs about the vectorised pixelwise functions. *)
From Coq Require Import ZArith List Bool Lia.
From Verif Require Import Base Image Spec BaseProofs ImgFun ImgLemmas ImgProofs Simd StepProofs.
Import ListNotations.
Open Scope Z_scope.

Ltac Zify.zify_post_hook ::= Z.div_mod_to_equations.

(** ** Lists and registers *)

Lemma map2_length {A B C} (f : A -> B -> C) a b : length (map2 f a b) = Nat.min (length a) (length b).
Proof. unfold map2. rewrite map_length, combine_length. reflexivity. Qed.

Lemma map2_cons {A B C} (f : A -> B -> C) x a y b : map2 f (x :: a) (y :: b) = f x y :: map2 f a b.
Proof. reflexivity. Qed.

Lemma map2_nil_r {A B C} (f : A -> B -> C) a : map2 f a [] = [].
Proof. destruct a; reflexivity. Qed.

Lemma map2_firstn {A B C} (f : A -> B -> C) n : forall a b,
  map2 f (firstn n a) (firstn n b) = firstn n (map2 f a b).
Proof.
  induction n as [|n IH]; intros [|x a] [|y b]; try reflexivity.
  cbn [firstn]. rewrite !map2_cons. cbn [firstn]. f_equal. apply IH.
Qed.

Lemma map2_skipn {A B C} (f : A -> B -> C) n : forall a b,
  map2 f (skipn n a) (skipn n b) = skipn n (map2 f a b).
Proof.
  induction n as [|n IH]; intros [|x a] [|y b]; try reflexivity.
  - cbn [skipn]. rewrite map2_nil_r. reflexivity.
  - cbn [skipn]. rewrite map2_cons. cbn [skipn]. apply IH.
Qed.

Lemma vmap2_lanes f sz k : forall a b, vmap2 f (lanes k sz a) (lanes k sz b) = lanes k sz (map2 f a b).
Proof.
  induction k as [|k IH]; intros a b; [reflexivity|].
  cbn [lanes]. unfold vmap2 in *. rewrite map2_cons, map2_firstn, IH, map2_skipn. reflexivity.
Qed.

Lemma vmap_lanes f sz k : forall a, vmap f (lanes k sz a) = lanes k sz (map f a).
Proof.
  induction k as [|k IH]; intros a; [reflexivity|].
  cbn [lanes]. unfold vmap in *. cbn [map]. rewrite <- firstn_map, IH, skipn_map. reflexivity.
Qed.

Lemma firstn_repeat {A} (v : A) n k : firstn n (repeat v (n + k)) = repeat v n.
Proof. induction n; cbn [Nat.add repeat firstn]; [destruct k; reflexivity|f_equal; auto]. Qed.
Lemma skipn_repeat {A} (v : A) n k : skipn n (repeat v (n + k)) = repeat v k.
Proof. induction n; cbn [Nat.add repeat skipn]; auto. Qed.

Lemma set1_lanes k v : set1 k v = lanes k 16 (repeat v (k * 16)).
Proof.
  unfold set1. induction k as [|k IH]; [reflexivity|].
  replace (S k * 16)%nat with (16 + k * 16)%nat by lia.
  cbn [repeat lanes]. rewrite firstn_repeat, skipn_repeat, <- IH. reflexivity.
Qed.

Lemma concat_lanes sz k : forall l, length l = (k * sz)%nat -> concat (lanes k sz l) = l.
Proof.
  induction k as [|k IH]; intros l Hl.
  - destruct l; [reflexivity|discriminate].
  - cbn [lanes concat]. rewrite IH; [apply firstn_skipn|]. rewrite skipn_length. lia.
Qed.

Lemma map2_diag {A B C} (f : A -> B -> C) (g : Z -> A) (h : Z -> B) l :
  map2 f (map g l) (map h l) = map (fun x => f (g x) (h x)) l.
Proof. induction l as [|x l IH]; cbn [map]; [reflexivity|]. rewrite map2_cons, IH. reflexivity. Qed.

Lemma repeat_map {A} (v : A) (l : list Z) n : length l = n -> repeat v n = map (fun _ => v) l.
Proof. revert n. induction l; intros [|n] H; cbn in *; try lia; auto. f_equal. auto. Qed.

Definition byte (a : Z) : Prop := 0 <= a < 256.

(** A register operation that acts on the bytes as [f]: stated for any list of positions. *)
Definition vec2 (k : nat) (vop : reg -> reg -> reg) (f : Z -> Z -> Z) : Prop :=
  forall (g h : Z -> Z) (l : list Z), length l = (k * 16)%nat ->
  (forall x, In x l -> byte (g x) /\ byte (h x)) ->
  vop (lanes k 16 (map g l)) (lanes k 16 (map h l)) = lanes k 16 (map (fun x => f (g x) (h x)) l).

Definition vec1 (k : nat) (vop : reg -> reg) (f : Z -> Z) : Prop :=
  forall (g : Z -> Z) (l : list Z), length l = (k * 16)%nat ->
  (forall x, In x l -> byte (g x)) ->
  vop (lanes k 16 (map g l)) = lanes k 16 (map (fun x => f (g x)) l).

(** ** Loop arithmetic *)

Lemma simd_widths w n : 0 <= w < W32 -> 0 < n ->
  totalSimdWidth w n = w / n * n /\ nonSimdWidth w n = w mod n /\ simdWidth w n = w / n /\
  0 <= w / n /\ 0 <= w mod n < n /\ w = w / n * n + w mod n.
Proof.
  intros Hw Hn. unfold nonSimdWidth, totalSimdWidth, simdWidth.
  pose proof (Z.div_mod w n). pose proof (Z.mod_pos_bound w n Hn).
  assert (0 <= w / n) by (apply Z.div_pos; lia).
  assert (E1 : u32 (w / n * n) = w / n * n) by (apply u32_small; nia).
  rewrite E1. rewrite u32_small by nia. repeat split; nia.
Qed.

Lemma if_tail {E S} (n : Z) (x : res E S) s : 0 <= n -> (n = 0 -> x = Ok s) ->
  (if 0 <? n then x else Ok s) = x.
Proof. intros H H0. destruct (Z.ltb_spec 0 n); auto. symmetry. apply H0. lia. Qed.

Lemma walk_zero {E T} c cur ss (body : list ptr -> T -> res E T) t :
  walk 0 (c :: cur) ss (padd c 0) body t = Ok t.
Proof.
  unfold walk, fuel_of. change (Z.to_nat 0) with 0%nat. cbn [loop fst nth].
  rewrite padd_0, ptr_eqb_refl. reflexivity.
Qed.

(** ** Steps *)

Lemma stores_pairs {E} (W : list (ptr * Z)) (t : mem) :
  (forall p, In p (map fst W) -> inb t p = true) -> NoDup (map fst W) ->
  exists t', @stores E t (map fst W) (map snd W) = Ok t' /\ same_len t t' /\
    (forall q, ~ In q (map fst W) -> get t' q = get t q) /\
    (forall p v, In (p, v) W -> get t' p = v).
Proof.
  intros Hin Hnd.
  destruct (@stores_ok E (map fst W) t (map snd W) Hin) as (t' & He & Hl & Hf & Hv).
  { rewrite !map_length. reflexivity. }
  exists t'. split; [exact He|]. split; [exact Hl|]. split; [exact Hf|].
  intros p v Hpv. destruct (In_nth W (p, v) (nullp, 0) Hpv) as (i & Hi & Hnth).
  specialize (Hv Hnd i (fst (nullp, 0))). rewrite !map_nth in Hv. rewrite Hnth in Hv.
  cbn [fst] in Hv. rewrite Hv by (rewrite map_length; exact Hi).
  change 0 with (snd (nullp, 0)). rewrite map_nth, Hnth. reflexivity.
Qed.

Lemma span_from n : forall p s, span (padd p s) n = map (padd p) (zseq s n).
Proof.
  induction n as [|n IH]; intros p s; cbn [span zseq map]; auto.
  rewrite padd_padd. f_equal. apply IH.
Qed.

Lemma NoDup_span_from p s n : NoDup (map (padd p) (zseq s n)).
Proof. rewrite <- span_from. apply span_NoDup. Qed.

Lemma map_fst_wr {A} (D : A -> ptr) (V : A -> Z) l : map fst (map (fun i => (D i, V i)) l) = map D l.
Proof. rewrite map_map. reflexivity. Qed.
Lemma map_snd_wr {A} (D : A -> ptr) (V : A -> Z) l : map snd (map (fun i => (D i, V i)) l) = map V l.
Proof. rewrite map_map. reflexivity. Qed.

Lemma storeu_step (t : mem) p s n (V : Z -> Z) (r : reg) :
  (forall i, s <= i < s + Z.of_nat n -> inb t (padd p i) = true) ->
  concat r = map V (zseq s n) ->
  exists t', storeu t (padd p s) r = Ok t' /\ same_len t t' /\
    (forall q, ~ In q (map fst (map (fun i => (padd p i, V i)) (zseq s n))) -> get t' q = get t q) /\
    (forall q v, In (q, v) (map (fun i => (padd p i, V i)) (zseq s n)) -> get t' q = v).
Proof.
  intros Hin Hr. unfold storeu. rewrite Hr, map_length, zseq_length, span_from.
  destruct (@stores_pairs mem (map (fun i => (padd p i, V i)) (zseq s n)) t) as (t' & He & H).
  - rewrite map_fst_wr. intros q Hq. apply in_map_iff in Hq as (i & <- & Hi). apply zseq_In in Hi. auto.
  - rewrite map_fst_wr. apply NoDup_span_from.
  - rewrite map_fst_wr, map_snd_wr in He. exists t'. split; [exact He|exact H].
Qed.

Lemma loadu_ok k (t : mem) p s :
  (forall i, s <= i < s + Z.of_nat (k * 16) -> inb t (padd p i) = true) ->
  loadu k t (padd p s) = Ok (lanes k 16 (map (fun i => get t (padd p i)) (zseq s (k * 16)))).
Proof.
  intros H. unfold loadu. rewrite span_from. rewrite loads_ok.
  - cbn [bind]. rewrite map_map. reflexivity.
  - intros q Hq. apply in_map_iff in Hq as (i & <- & Hi). apply zseq_In in Hi. auto.
Qed.

Lemma flat_map_single {A B} (f : A -> B) l : flat_map (fun x => [f x]) l = map f l.
Proof. induction l; cbn [flat_map map app]; congruence. Qed.

(** ** Two inputs *)

Section Rows2.
Variables (k : nat) (vop : reg -> reg -> reg) (f : Z -> Z -> Z).
Hypothesis Hk : (0 < k)%nat.
Hypothesis Hvop : vec2 k vop f.

Lemma packet2_ok (m : mem) (pa pb pd : ptr) (s : Z) :
  (forall i, s <= i < s + Z.of_nat (k * 16) ->
     inb m (padd pa i) = true /\ inb m (padd pb i) = true /\ inb m (padd pd i) = true /\
     byte (get m (padd pa i)) /\ byte (get m (padd pb i))) ->
  @step_ok mem (fun t => bind (loadu k t (padd pa s)) (fun a => bind (loadu k t (padd pb s))
                     (fun b => storeu t (padd pd s) (vop a b)))) m
    (flat_map (fun i => [padd pa i; padd pb i]) (zseq s (k * 16)))
    (map (fun i => (padd pd i, f (get m (padd pa i)) (get m (padd pb i)))) (zseq s (k * 16))).
Proof.
  intros H t Hl Hs.
  assert (Ha : forall i, s <= i < s + Z.of_nat (k * 16) -> get t (padd pa i) = get m (padd pa i)).
  { intros i Hi. apply Hs. apply in_flat_map. exists i. split; [apply zseq_In; auto|simpl; auto]. }
  assert (Hb : forall i, s <= i < s + Z.of_nat (k * 16) -> get t (padd pb i) = get m (padd pb i)).
  { intros i Hi. apply Hs. apply in_flat_map. exists i. split; [apply zseq_In; auto|simpl; auto]. }
  rewrite loadu_ok by (intros i Hi; rewrite (same_len_inb m t) by assumption; apply H; auto).
  cbn [bind].
  rewrite loadu_ok by (intros i Hi; rewrite (same_len_inb m t) by assumption; apply H; auto).
  cbn [bind].
  rewrite Hvop.
  - apply (storeu_step t pd s (k * 16)).
    + intros i Hi. rewrite (same_len_inb m t) by assumption. apply H; auto.
    + rewrite concat_lanes by (rewrite map_length, zseq_length; reflexivity).
      apply map_ext_in. intros i Hi. apply zseq_In in Hi. rewrite Ha, Hb by auto. reflexivity.
  - apply zseq_length.
  - intros i Hi. apply zseq_In in Hi. rewrite Ha, Hb by auto. split; apply H; auto.
Qed.

Lemma single2_ok (m : mem) (pa pb pd : ptr) :
  inb m pa = true -> inb m pb = true -> inb m pd = true ->
  @step_ok mem (fun t => bind (load t pa) (fun a => bind (load t pb) (fun b => store t pd (f a b)))) m
    [pa; pb] [(pd, f (get m pa) (get m pb))].
Proof.
  intros Ha Hb Hd t Hl Hs.
  rewrite load_ok by (rewrite (same_len_inb m t) by assumption; assumption). cbn [bind].
  rewrite load_ok by (rewrite (same_len_inb m t) by assumption; assumption). cbn [bind].
  rewrite store_ok by (rewrite (same_len_inb m t) by assumption; assumption).
  rewrite (Hs pa), (Hs pb) by (simpl; auto).
  eexists. split; [reflexivity|]. split; [intros b; apply len_upd|]. split.
  - intros q Hq. apply get_upd_other. intros ->. apply Hq. simpl; auto.
  - intros p v [He|[]]. injection He as <- <-. apply get_upd_same.
Qed.

(** The kernel on [h] rows of [w] samples. *)
Lemma rows2_ok (m : mem) (in1Y in2Y outY : ptr) (rs1 rs2 rso w h : Z) :
  0 <= w < W32 -> 0 <= h -> 0 < rso -> h * rso < W32 ->
  let ok j i := 0 <= j < h /\ 0 <= i < w in
  let a j i := padd in1Y (j * rs1 + i) in
  let b j i := padd in2Y (j * rs2 + i) in
  let d j i := padd outY (j * rso + i) in
  (forall j i, ok j i -> inb m (a j i) = true /\ inb m (b j i) = true /\ inb m (d j i) = true /\
     byte (get m (a j i)) /\ byte (get m (b j i))) ->
  (forall j i j' i', ok j i -> ok j' i' -> d j i = d j' i' -> j = j' /\ i = i') ->
  (forall j i j' i', ok j i -> ok j' i' -> d j i = a j' i' \/ d j i = b j' i' -> j = j' /\ i = i') ->
  exists m', rows2 k vop f m in1Y in2Y outY rs1 rs2 rso w h = Ok m' /\ same_len m m' /\
    (forall q, (forall j i, ok j i -> q <> d j i) -> get m' q = get m q) /\
    (forall j i, ok j i -> get m' (d j i) = f (get m (a j i)) (get m (b j i))).
Proof.
  intros Hw Hh Hrso Hsm ok a b d Hcell Hinj Hhaz.
  set (n := 16 * Z.of_nat k).
  destruct (simd_widths w n) as (ET & EN & ES & Hq & Hr & Ew); [auto|subst n; lia|].
  set (cnt := Z.to_nat (w / n)). set (tl := Z.to_nat (w mod n)).
  set (packet := fun j q (t : mem) =>
         bind (loadu k t (padd (padd in1Y (j * rs1)) (q * n))) (fun x =>
         bind (loadu k t (padd (padd in2Y (j * rs2)) (q * n))) (fun y =>
         storeu t (padd (padd outY (j * rso)) (q * n)) (vop x y)))).
  set (single := fun j i (t : mem) =>
         bind (load t (a j (w / n * n + i))) (fun x => bind (load t (b j (w / n * n + i))) (fun y =>
         @store mem t (d j (w / n * n + i)) (f x y)))).
  assert (Hrun : rows2 k vop f m in1Y in2Y outY rs1 rs2 rso w h
     = iterM (Z.to_nat h) 0 (fun j t => bind (iterM cnt 0 (packet j) t) (iterM tl 0 (single j))) m).
  { unfold rows2. fold n. rewrite ET, EN, ES. rewrite walk_rows by (auto; lia).
    apply iterM_ext. intros j t Hj. unfold at_, c0, c1, c2. cbn [combine map nth fst snd].
    rewrite (walk_iterM (w / n)) by (try reflexivity; subst n; lia).
    apply bind_ext. intros t' _.
    rewrite if_tail.
    - rewrite (walk_iterM (w mod n)) by (rewrite ?Z.mul_1_r; try reflexivity; lia).
      unfold at_. cbn [combine map nth fst snd]. fold tl.
      apply iterM_ext. intros i u Hi. unfold single, a, b, d. rewrite !padd_padd.
      rewrite !Z.mul_1_r, ?Z.add_assoc. reflexivity.
    - lia.
    - intros H0. rewrite H0. apply walk_zero. }
  destruct (@units_rows mem (Z.to_nat h) cnt tl (k * 16) (fun j i => [a j i; b j i])
              (fun j i => [(d j i, f (get m (a j i)) (get m (b j i)))]) (fun _ _ => []) packet single m)
    as (m' & He & Hl & Hf & Hv).
  - intros j q Hj Hq'. rewrite app_nil_r.
    assert (Hrange : forall i, q * n <= i < q * n + Z.of_nat (k * 16) -> ok j i).
    { intros i Hi. unfold ok. split; [lia|]. subst cnt. subst n. nia. }
    assert (Hn : Z.of_nat (k * 16) = n) by (subst n; lia). rewrite Hn.
    pose proof (packet2_ok m (padd in1Y (j * rs1)) (padd in2Y (j * rs2)) (padd outY (j * rso)) (q * n)) as Hp.
    rewrite flat_map_single.
    intros t Ht Hs. specialize (Hp). 
    destruct Hp with (t := t) as (t' & A1 & A2 & A3 & A4).
    + intros i Hi. rewrite !padd_padd. apply (Hcell j i). apply Hrange; auto.
    + exact Ht.
    + intros s Hin. apply Hs. rewrite in_flat_map in *. destruct Hin as (i & Hi & Hin). exists i. split; auto.
      rewrite !padd_padd in Hin. exact Hin.
    + exists t'. split; [exact A1|]. split; [exact A2|].
      assert (Hmap : map (fun i => (padd (padd outY (j * rso)) i,
                       f (get m (padd (padd in1Y (j * rs1)) i)) (get m (padd (padd in2Y (j * rs2)) i))))
                       (zseq (q * n) (k * 16))
               = map (fun i => (d j i, f (get m (a j i)) (get m (b j i)))) (zseq (q * n) (k * 16))).
      { apply map_ext. intros i. rewrite !padd_padd. reflexivity. }
      rewrite Hmap in A3, A4. auto.
  - intros j i Hj Hi. replace (Z.of_nat cnt * Z.of_nat (k * 16)) with (w / n * n) by (subst n cnt; lia).
    assert (ok j (w / n * n + i)) by (unfold ok; subst tl; lia).
    destruct (Hcell j (w / n * n + i)) as (A1 & A2 & A3 & _); auto.
    apply single2_ok; auto.
  - intros j i j' i' p (Hj & Hi) (Hj' & Hi') [<-|[]] [He|[]]. symmetry in He. cbn [fst] in He.
    apply Hinj; auto; unfold ok; subst cnt tl n; lia.
  - intros j i j' i' p (Hj & Hi) (Hj' & Hi') [<-|[]] Hin. cbn [fst] in Hin.
    apply Hhaz; unfold ok; try (subst cnt tl n; lia). destruct Hin as [<-|[<-|[]]]; auto.
  - intros j q p _ _ [].
  - exists m'. split; [rewrite Hrun; exact He|]. split; [exact Hl|].
    assert (HU : forall j i, ok j i <-> 0 <= j < Z.of_nat (Z.to_nat h) /\ 0 <= i < Z.of_nat (cnt * (k * 16) + tl)).
    { intros j i. unfold ok. subst cnt tl n. lia. }
    split.
    + intros q Hq'. apply Hf. intros j i Hok [Hin|[]]. apply HU in Hok. apply (Hq' j i Hok). auto.
    + intros j i Hok. apply (Hv j i); [apply HU; auto|simpl; auto].
Qed.
End Rows2.

(** The kernel after row merging writes the region. *)
Lemma rows2_writes k vop f m in1 x1 y1 in2 x2 y2 out xo yo w h w' h' :
  (0 < k)%nat -> vec2 k vop f ->
  wf m in1 -> wf m in2 -> wf m out ->
  icc in1 = icc out -> icc in2 = icc out ->
  roi_in in1 x1 y1 w h -> roi_in in2 x2 y2 w h -> roi_in out xo yo w h ->
  bytes m in1 -> bytes m in2 ->
  no_hazard out xo yo in1 x1 y1 w h -> no_hazard out xo yo in2 x2 y2 w h ->
  OptimiseRoi (w * icc out) h [in1; in2; out] = (w', h') ->
  writes (rows2 k vop f m (origin in1 x1 y1 (icc out)) (origin in2 x2 y2 (icc out)) (origin out xo yo (icc out))
            (irs in1) (irs in2) (irs out) w' h') m out xo yo w h
    (fun i j c => f (pixel m in1 (x1 + i) (y1 + j) c) (pixel m in2 (x2 + i) (y2 + j) c)).
Proof.
  intros Hk Hv W1 W2 Wo C1 C2 R1 R2 Ro B1 B2 Z1 Z2 Ho.
  pose proof (wf_cc_pos _ _ Wo) as Hcc.
  assert (Hw0 : 0 < w) by apply Ro. assert (Hh0 : 0 < h) by apply Ro.
  pose proof (wf_bounds _ _ Wo) as (Bw & _ & _ & Bwc).
  assert (HW : 0 < w * icc out < W32) by (destruct Ro; nia).
  destruct (merge_cells (w * icc out) h _ w' h' HW Hh0 Ho) as (Hw' & Hh' & _ & Hto & Hfrom & Hinj).
  pose proof (roi_rows_small m out xo yo w h Wo Ro) as Hsm.
  pose proof (wf_rs_pos _ _ Wo) as Hrs.
  assert (Hio : In out [in1; in2; out]) by (simpl; auto).
  assert (Hi1 : In in1 [in1; in2; out]) by (simpl; auto).
  assert (Hi2 : In in2 [in1; in2; out]) by (simpl; auto).
  assert (Hrw : w * icc out <= irs out) by (pose proof (wf_rs _ _ Wo); destruct Ro; nia).
  assert (Hbyte : forall im x y j i, In im [in1; in2] -> wf m im -> roi_in im x y w h -> icc im = icc out -> bytes m im ->
            0 <= j < h -> 0 <= i < w * icc out -> byte (get m (padd (origin im x y (icc out)) (j * irs im + i)))).
  { intros im x y j i _ Wi Ri Ci Bi Hj Hi.
    destruct (split_index (icc out) i w) as (A & B & C); try lia.
    pose proof (Bi (x + i / icc out) (y + j) (i mod icc out)) as Hb. unfold pixel in Hb.
    rewrite px_origin, Ci, <- C in Hb. unfold byte. apply Hb; destruct Ri; lia. }
  destruct (rows2_ok k vop f Hk Hv m (origin in1 x1 y1 (icc out)) (origin in2 x2 y2 (icc out))
              (origin out xo yo (icc out)) (irs in1) (irs in2) (irs out) w' h') as (m' & He & Hl & Hf & Hval);
    try lia; try nia.
  - intros j i (Hj & Hi). destruct (Hto j i Hj Hi) as (j0 & i0 & Hj0 & Hi0 & Heq).
    rewrite (Heq in1 Hi1), (Heq in2 Hi2), (Heq out Hio).
    split; [rewrite <- C1; apply (cell_inb m in1 x1 y1 w h); auto; rewrite C1; auto|].
    split; [rewrite <- C2; apply (cell_inb m in2 x2 y2 w h); auto; rewrite C2; auto|].
    split; [apply (cell_inb m out xo yo w h); auto|].
    split; apply Hbyte; simpl; auto.
  - intros j i j' i' (Hj & Hi) (Hj' & Hi') He. apply padd_inj in He.
    apply (Hinj out j i j' i'); auto.
  - intros j i j' i' (Hj & Hi) (Hj' & Hi') He.
    destruct (Hto j i Hj Hi) as (j0 & i0 & Hj0 & Hi0 & Heq).
    destruct (Hto j' i' Hj' Hi') as (j1 & i1 & Hj1 & Hi1' & Heq').
    apply (Hinj out j i j' i'); auto.
    rewrite (Heq out Hio), (Heq' out Hio).
    rewrite (Heq out Hio), (Heq' in1 Hi1), (Heq' in2 Hi2) in He.
    assert (j0 = j1 /\ i0 = i1) as [-> ->]; [|reflexivity].
    destruct He as [He|He].
    + apply (hazard_samples out xo yo in1 x1 y1 w h); auto; try lia; rewrite C1; auto.
    + apply (hazard_samples out xo yo in2 x2 y2 w h); auto; try lia; rewrite C2; auto.
  - destruct (@writes_of_samples mem (Ok m') m out xo yo w h
      (fun j i => f (get m (padd (origin in1 x1 y1 (icc out)) (j * irs in1 + i)))
                    (get m (padd (origin in2 x2 y2 (icc out)) (j * irs in2 + i)))) Wo) as (m'' & E'' & V'' & F'').
    + exists m'. split; [reflexivity|]. split; [exact Hl|]. split.
      * intros q Hq. apply Hf. intros j i (Hj & Hi) ->.
        destruct (Hto j i Hj Hi) as (j0 & i0 & Hj0 & Hi0 & Heq).
        apply (Hq j0 i0); auto. rewrite (Heq out Hio). reflexivity.
      * intros j i Hj Hi. destruct (Hfrom j i Hj Hi) as (j' & i' & Hj' & Hi' & Heq).
        rewrite <- (Heq in1 Hi1), <- (Heq in2 Hi2), <- (Heq out Hio). apply Hval. auto.
    + injection E'' as <-. exists m'. split; [exact He|]. split; [|exact F''].
      intros i j c Hin. rewrite V'' by assumption.
      unfold pixel. rewrite !px_origin, C1, C2. reflexivity.
Qed.

(** ** Register operations *)

Lemma vec2_vmap2 k g f : (forall a b, byte a -> byte b -> g a b = f a b) -> vec2 k (vmap2 g) f.
Proof.
  intros H u v l Hl Hb. rewrite vmap2_lanes, map2_diag. f_equal. apply map_ext_in. intros x Hx.
  apply H; apply Hb; assumption.
Qed.

Lemma byte_all (P : Z -> bool) : forallb P (zseq 0 256) = true -> forall a, byte a -> P a = true.
Proof. intros H a Ha. rewrite forallb_forall in H. apply H. apply zseq_In. exact Ha. Qed.

Lemma byte_all2 (P : Z -> Z -> bool) : forallb (fun a => forallb (P a) (zseq 0 256)) (zseq 0 256) = true ->
  forall a b, byte a -> byte b -> P a b = true.
Proof.
  intros H a b Ha Hb. apply byte_all; [|assumption].
  exact (byte_all (fun a => forallb (P a) (zseq 0 256)) H a Ha).
Qed.

Ltac bytes2 P := let H := fresh in
  assert (H : forallb (fun a => forallb (P a) (zseq 0 256)) (zseq 0 256) = true) by (vm_compute; reflexivity);
  intros ? ? Ha Hb; apply Z.eqb_eq; exact (byte_all2 P H _ _ Ha Hb).

(** Compositions: every register is [lanes] of a list indexed by the positions. *)
Ltac vec_unfold :=
  repeat match goal with
  | |- context [vmap2 ?g (lanes ?k ?sz ?a) (lanes ?k ?sz ?b)] => rewrite (vmap2_lanes g sz k a b)
  | |- context [vmap ?g (lanes ?k ?sz ?a)] => rewrite (vmap_lanes g sz k a)
  | |- context [map2 ?f (map ?g ?l) (map ?h ?l)] => rewrite (map2_diag f g h l)
  | |- context [map ?f (map ?g ?l)] => rewrite (map_map g f l)
  end.

Lemma v_absdiff_vec t : vec2 (nlanes t) (v_absdiff t) absdiff_px.
Proof.
  assert (Hx : forall k, vec2 k (fun a b => sub_epi8 (max_epu8 a b) (min_epu8 a b)) absdiff_px).
  { intros k u v l Hl Hb. unfold sub_epi8, max_epu8, min_epu8. vec_unfold. f_equal.
    apply map_ext_in. intros x Hx. destruct (Hb x Hx) as [Hu Hv]. unfold byte in *. unfold absdiff_px.
    destruct (Z.ltb_spec (u x) (v x)); f_equal; lia. }
  destruct t; try apply Hx.
  unfold v_absdiff, vabdq_u8. apply vec2_vmap2. intros a b Ha Hb. unfold byte, absdiff_px, u8 in *.
  destruct (Z.ltb_spec a b); lia.
Qed.

Lemma v_and_vec t : vec2 (nlanes t) (v_and t) Z.land.
Proof. destruct t; apply vec2_vmap2; reflexivity. Qed.
Lemma v_or_vec t : vec2 (nlanes t) (v_or t) Z.lor.
Proof. destruct t; apply vec2_vmap2; reflexivity. Qed.
Lemma v_xor_vec t : vec2 (nlanes t) (v_xor t) Z.lxor.
Proof. destruct t; apply vec2_vmap2; reflexivity. Qed.
Lemma v_max_vec t : vec2 (nlanes t) (v_max t) max_px.
Proof.
  destruct t; apply vec2_vmap2; intros a b _ _; unfold max_px; destruct (Z.ltb_spec b a); lia.
Qed.
Lemma v_min_vec t : vec2 (nlanes t) (v_min t) min_px.
Proof.
  destruct t; apply vec2_vmap2; intros a b _ _; unfold min_px; destruct (Z.ltb_spec a b); lia.
Qed.
Lemma v_sub_vec t : vec2 (nlanes t) (v_sub t) sub_px.
Proof.
  assert (Hx : forall k, vec2 k (fun a b => vmap2 (fun a b => u8 (a - b)) a (vmap2 Z.min a b)) sub_px).
  { intros k u v l Hl Hb. vec_unfold. f_equal.
    apply map_ext_in. intros x Hx. destruct (Hb x Hx) as [Hu Hv]. unfold byte in *. unfold sub_px, u32, W32.
    destruct (Z.ltb_spec (u x) (v x)).
    - f_equal; lia.
    - rewrite Z.min_r by lia. rewrite (Z.mod_small _ 4294967296) by lia. reflexivity. }
  destruct t; apply Hx.
Qed.

(** ** Dispatch *)

Lemma nlanes_size t : t <> cpu -> getSimdSize t = 16 * Z.of_nat (nlanes t) /\ (0 < nlanes t)%nat.
Proof. destruct t; intros H; try (split; [reflexivity|cbn; lia]). congruence. Qed.

Lemma actual_compiled b fl : actualSimdType b fl = cpu \/ compiled b (actualSimdType b fl) = true.
Proof.
  unfold actualSimdType.
  destruct (b_avx512 b) eqn:E1, (f_avx512 fl), (b_avx b) eqn:E2, (f_avx fl), (b_sse b) eqn:E3, (f_sse fl),
    (b_neon b) eqn:E4, (f_neon fl); cbn [andb compiled]; auto.
Qed.

(** What one level of the dispatch does, [t] being usable in build [b]. *)
Definition usable (b : build) (t : simd_type) : Prop := t = cpu \/ compiled b t = true.

Lemma avx_sse b : build_ok b = true -> b_avx b = true -> compiled b sse = true.
Proof.
  unfold build_ok. intros H E. rewrite E in H. cbn [compiled].
  destruct (b_sse b); auto. cbn [implb] in H. rewrite andb_false_r in H. cbn [andb] in H. discriminate H.
Qed.

Section Dispatch2.
Variables (vop : simd_type -> reg -> reg -> reg) (f : Z -> Z -> Z)
  (scalar : mem -> image -> Z -> Z -> image -> Z -> Z -> image -> Z -> Z -> Z -> Z -> res mem mem).
Hypothesis Hvec : forall t, vec2 (nlanes t) (vop t) f.

(** Rejection: the guards of the vector function and of the scalar function throw alike. *)
Lemma simd2_rejects b t m in1 x1 y1 in2 x2 y2 out xo yo w h :
  usable b t -> build_ok b = true ->
  valid_roi3 in1 x1 y1 in2 x2 y2 out xo yo w h && common_cc3 in1 in2 out = false ->
  scalar m in1 x1 y1 in2 x2 y2 out xo yo w h = Throw m ->
  simd2 vop f scalar b t m in1 x1 y1 in2 x2 y2 out xo yo w h = Throw m.
Proof.
  intros Hu Hb Hg Hs. unfold simd2, twice.
  destruct (common_cc3 in1 in2 out); [|destruct t; reflexivity].
  rewrite andb_true_r in Hg. rewrite Hg, Hs.
  destruct (is_cpu t || (u32 (w * icc in1) <? getSimdSize t)); auto.
  destruct (is_avx t && b_avx b); auto.
  destruct (is_cpu sse || (u32 (w * icc in1) <? getSimdSize sse)); auto.
Qed.

Lemma simd2_writes b t m in1 x1 y1 in2 x2 y2 out xo yo w h :
  usable b t -> build_ok b = true ->
  wf m in1 -> wf m in2 -> wf m out ->
  icc in1 = icc out -> icc in2 = icc out ->
  roi_in in1 x1 y1 w h -> roi_in in2 x2 y2 w h -> roi_in out xo yo w h ->
  bytes m in1 -> bytes m in2 ->
  no_hazard out xo yo in1 x1 y1 w h -> no_hazard out xo yo in2 x2 y2 w h ->
  (writes (scalar m in1 x1 y1 in2 x2 y2 out xo yo w h) m out xo yo w h
     (fun i j c => f (pixel m in1 (x1 + i) (y1 + j) c) (pixel m in2 (x2 + i) (y2 + j) c))
   \/ (t <> cpu /\ getSimdSize t <= w * icc out) \/ (t = avx /\ 16 <= w * icc out)) ->
  writes (simd2 vop f scalar b t m in1 x1 y1 in2 x2 y2 out xo yo w h) m out xo yo w h
    (fun i j c => f (pixel m in1 (x1 + i) (y1 + j) c) (pixel m in2 (x2 + i) (y2 + j) c)).
Proof.
  intros Hu Hb W1 W2 Wo C1 C2 R1 R2 Ro B1 B2 Z1 Z2 Hsc.
  assert (Hkernel : forall t, t <> cpu -> compiled b t = true ->
    writes (let '(w, h) := OptimiseRoi (w * icc out) h [in1; in2; out] in
      rows2 (nlanes t) (vop t) f m (row_ptr in1 x1 y1 (icc out)) (row_ptr in2 x2 y2 (icc out)) (row_ptr out xo yo (icc out))
        (irs in1) (irs in2) (irs out) w h) m out xo yo w h
    (fun i j c => f (pixel m in1 (x1 + i) (y1 + j) c) (pixel m in2 (x2 + i) (y2 + j) c))).
  { intros t' Ht' Hc.
    rewrite (row_ptr_origin m in1 x1 y1 w h) by (auto; pose proof (wf_cc_pos _ _ W1); lia).
    rewrite (row_ptr_origin m in2 x2 y2 w h) by (auto; pose proof (wf_cc_pos _ _ W2); lia).
    rewrite (row_ptr_origin m out xo yo w h) by (auto; pose proof (wf_cc_pos _ _ Wo); lia).
    destruct (OptimiseRoi (w * icc out) h [in1; in2; out]) as [w' h'] eqn:Ho.
    apply rows2_writes; auto. apply nlanes_size; assumption. }
  unfold simd2, twice.
  assert (Hcc : common_cc3 in1 in2 out = true) by (unfold common_cc3; rewrite C1, C2, !Z.eqb_refl; reflexivity).
  assert (Hva : valid_roi3 in1 x1 y1 in2 x2 y2 out xo yo w h = true).
  { unfold valid_roi3, valid_roi2. rewrite !(valid_roi_ok m) by assumption. reflexivity. }
  rewrite Hcc, Hva, C1.
  rewrite (u32_width m out xo w) by (auto; first [apply Ro|assert (0 < w) by apply Ro; lia]).
  destruct (is_cpu t || (w * icc out <? getSimdSize t)) eqn:E1.
  - destruct (is_avx t && b_avx b) eqn:E2.
    + apply andb_true_iff in E2 as [Et Eb].
      destruct (is_cpu sse || (w * icc out <? getSimdSize sse)) eqn:E3.
      * change (is_avx sse && b_avx b) with false. cbn [andb].
        destruct Hsc as [Hsc|Hsc]; [exact Hsc|exfalso].
        cbn [is_cpu orb getSimdSize] in E3. apply Z.ltb_lt in E3.
        destruct Hsc as [[Hn Hsc]|[_ Hsc]]; [|lia].
        destruct t; cbn in Hsc; try discriminate Et; lia.
      * rewrite (avx_sse b Hb Eb). apply Hkernel; [discriminate|]. apply avx_sse; auto.
    + destruct Hsc as [Hsc|Hsc]; [exact Hsc|exfalso].
      destruct Hsc as [[Hn Hsc]|[-> Hsc]].
      * apply orb_true_iff in E1 as [E1|E1]; [destruct t; try discriminate E1; congruence|].
        apply Z.ltb_lt in E1. lia.
      * destruct Hu as [Hu|Hu]; [discriminate|]. cbn [compiled] in Hu. cbn [is_avx andb] in E2. congruence.
  - apply orb_false_iff in E1 as [Et Ew].
    assert (Hn : t <> cpu) by (intros ->; discriminate Et).
    destruct Hu as [Hu|Hu]; [congruence|].
    specialize (Hkernel t Hn Hu).
    destruct (OptimiseRoi (w * icc out) h [in1; in2; out]) as [w' h']. rewrite Hu. exact Hkernel.
Qed.
End Dispatch2.
