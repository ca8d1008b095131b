(** Putting the strips of a multi-threaded call together. *)
From Coq Require Import ZArith List Bool Lia Arith.
From Verif Require Import Base Image Spec BaseProofs ImgFun ImgLemmas ImgProofs ConvProofs SafeProofs FuncPool FuncPoolProofs StripProofs.
Import ListNotations.
Open Scope Z_scope.

Ltac Zify.zify_post_hook ::= Z.div_mod_to_equations.

Lemma every_schedule_weak n call (Q Q' : mem -> Prop) :
  (forall M, Q M -> Q' M) -> every_schedule n call Q -> every_schedule n call Q'.
Proof.
  intros HQ [H1 H2]. split; [|exact H2]. intros sched. destruct (H1 sched) as [H|(M & HM & HQM)]; eauto 6.
Qed.

(** The tasks of a list of strips [ss], none of which touches what another one writes. *)
Lemma tiles_gen m (ss : list strip) (C : strip -> code) (B : strip -> mem -> res mem mem)
    (W Rd : strip -> ptr -> Prop) n :
  (length ss <= n)%nat ->
  (forall s, In s ss -> strip_ok (C s) (B s) (W s) (Rd s) /\ exists m', B s m = Ok m') ->
  (forall i j s t p, i <> j -> nth_error ss i = Some s -> nth_error ss j = Some t ->
     W s p -> ~ W t p /\ ~ Rd t p) ->
  every_schedule n (fun sched => process sched m (map C ss))
    (fun M => same_len m M /\
       (forall i s m', nth_error ss i = Some s -> B s m = Ok m' -> forall p, W s p -> get M p = get m' p) /\
       (forall p, (forall s, In s ss -> ~ W s p) -> get M p = get m p)).
Proof.
  intros Hn Hs Hr.
  assert (Hcodes : exists codes, map C ss = map Ok codes /\ length codes = length ss /\
    forall i c, nth_error codes i = Some c -> exists s, nth_error ss i = Some s /\
      (forall m, B s m = run c m) /\ (forall p, code_writes c p -> W s p) /\ (forall p, code_reads c p -> Rd s p)).
  { clear Hn Hr. induction ss as [|s ss IH].
    - exists []. split; [reflexivity|]. split; [reflexivity|]. intros [|i]; discriminate.
    - destruct IH as (codes & E & L & H); [intros t Ht; apply Hs; right; exact Ht|].
      destruct (Hs s (or_introl eq_refl)) as [(l & El & Hl) _].
      exists (l :: codes). cbn [map length]. rewrite E, El, L. split; [reflexivity|]. split; [reflexivity|].
      intros [|i] c Hc; cbn [nth_error] in *; [injection Hc as <-; exists s; auto|auto]. }
  destruct Hcodes as (codes & E & L & H). rewrite E.
  set (mf := fun i => match nth_error ss i with Some s => match B s m with Ok m' => m' | _ => m end | None => m end).
  eapply every_schedule_weak; [|apply (process_race_free m codes n mf
    (fun i p => exists s, nth_error ss i = Some s /\ W s p)
    (fun i p => exists s, nth_error ss i = Some s /\ (W s p \/ Rd s p)))].
  - intros M (H1 & H2 & H3). split; [exact H1|]. split.
    + intros i s m' Hi Hb p Hp. rewrite (H2 i p); [unfold mf; rewrite Hi, Hb; reflexivity| |eauto].
      rewrite L. apply nth_error_Some. congruence.
    + intros p Hp. apply H3. intros i _ (s & Hi & Hw). apply (Hp s); [eapply nth_error_In; eauto|exact Hw].
  - lia.
  - intros i c Hc. destruct (H i c Hc) as (s & Hi & Hb & HW & HR). split; [|split].
    + unfold mf. rewrite Hi. destruct (Hs s (nth_error_In _ _ Hi)) as [_ (m' & Hm')]. rewrite Hm', <- Hb. exact Hm'.
    + intros p Hp. eauto.
    + intros p Hp. eauto.
  - intros i p (s & Hi & Hw). eauto.
  - intros i j p _ _ Hij (s & Hi & Hw) (t & Hj & Hc). destruct (Hr i j s t p Hij Hi Hj Hw). tauto.
Qed.

(** ** One output *)

Definition tile_of (out : image) (xo yo : Z) (s : strip) : ptr -> Prop :=
  in_roi out (xo + sx s) (yo + sy s) (sw s) (sh s).

Lemma tile_inv m out xo yo w h s i j c p :
  wf m out -> roi_in out xo yo w h ->
  0 <= sx s -> sx s + sw s <= w -> 0 <= sy s -> sy s + sh s <= h ->
  inside w h (icc out) i j c -> p = px out (xo + i) (yo + j) c -> tile_of out xo yo s p ->
  covers s i j.
Proof.
  intros Wf R X1 X2 Y1 Y2 Hin Hp (i' & j' & c' & (Hi & Hj & Hc) & Hp').
  assert (He : i = sx s + i' /\ j = sy s + j' /\ c = c').
  { apply (px_inj m out xo yo w h); auto; [unfold inside; lia|]. rewrite <- Hp, Hp', !Z.add_assoc. reflexivity. }
  unfold covers. lia.
Qed.

Lemma tile_px out xo yo s i j c : covers s i j -> 0 <= c < icc out ->
  tile_of out xo yo s (px out (xo + i) (yo + j) c).
Proof.
  intros [H1 H2] Hc. exists (i - sx s), (j - sy s), c. split; [unfold inside; lia|].
  f_equal; lia.
Qed.

Lemma tile_roi out xo yo w h l s p : tiling l 0 0 w h -> In s l -> tile_of out xo yo s p -> in_roi out xo yo w h p.
Proof.
  intros (T & _) Hs (i & j & c & (Hi & Hj & Hc) & ->). specialize (T s Hs).
  exists (sx s + i), (sy s + j), c. split; [unfold inside; lia|]. rewrite !Z.add_assoc. reflexivity.
Qed.

Lemma tiles_disjoint m out xo yo w h l i j s t p :
  wf m out -> roi_in out xo yo w h -> tiling l 0 0 w h ->
  nth_error l i = Some s -> nth_error l j = Some t -> i <> j ->
  tile_of out xo yo s p -> tile_of out xo yo t p -> False.
Proof.
  intros Wf R T Hi Hj Hij Hs Ht. destruct (T) as (T1 & _ & T3).
  destruct (tile_roi out xo yo w h l s p T (nth_error_In _ _ Hi) Hs) as (a & b & c & Hin & Hp).
  pose proof (T1 s (nth_error_In _ _ Hi)). pose proof (T1 t (nth_error_In _ _ Hj)).
  apply Hij. apply (T3 i j s t a b); auto; apply (tile_inv m out xo yo w h _ a b c p); auto; lia.
Qed.

Lemma tiles_process m out xo yo w h V ss (o : strip -> strip) (C : strip -> code)
    (B : strip -> mem -> res mem mem) (Rd : strip -> ptr -> Prop) n :
  area m out xo yo w h -> tiling (map o ss) 0 0 w h -> (length ss <= n)%nat ->
  (forall s, In s ss ->
     strip_ok (C s) (B s) (tile_of out xo yo (o s)) (Rd s) /\
     writes (B s m) m out (xo + sx (o s)) (yo + sy (o s)) (sw (o s)) (sh (o s))
       (fun i j c => V (sx (o s) + i) (sy (o s) + j) c)) ->
  (forall i j s t p, i <> j -> nth_error ss i = Some s -> nth_error ss j = Some t ->
     tile_of out xo yo (o s) p -> ~ Rd t p) ->
  every_schedule n (fun sched => process sched m (map C ss)) (fun M => writes (Ok M : res mem mem) m out xo yo w h V).
Proof.
  intros [Wf R] T Hn Hs Hr.
  eapply every_schedule_weak; [|apply (tiles_gen m ss C B (fun s => tile_of out xo yo (o s)) Rd n Hn)].
  - intros M (L & HW & HF). exists M. split; [reflexivity|]. split.
    + intros i j c Hin. destruct (T) as (T1 & T2 & _). destruct Hin as (Hi & Hj & Hc).
      destruct (T2 i j) as (k & t & Hk & Hcov); try lia.
      rewrite nth_error_map in Hk. destruct (nth_error ss k) as [s|] eqn:Es; [|discriminate].
      cbn [option_map] in Hk. injection Hk as <-.
      destruct (Hs s (nth_error_In _ _ Es)) as [_ (m' & Hm' & Hv & _)].
      unfold pixel. rewrite (HW k s m' Es Hm') by (apply tile_px; auto).
      destruct Hcov as [H1 H2].
      specialize (Hv (i - sx (o s)) (j - sy (o s)) c ltac:(unfold inside; lia)). unfold pixel in Hv.
      replace (xo + sx (o s) + (i - sx (o s))) with (xo + i) in Hv by ring.
      replace (yo + sy (o s) + (j - sy (o s))) with (yo + j) in Hv by ring.
      rewrite Hv. f_equal; ring.
    + split; [exact L|]. intros p Hp. apply HF. intros s Hin Ht.
      destruct (tile_roi out xo yo w h _ (o s) p T (in_map o _ _ Hin) Ht) as (i & j & c & Hij & E).
      exact (Hp i j c Hij E).
  - intros s Hin. destruct (Hs s Hin) as [H1 (m' & Hm' & _)]. split; eauto.
  - intros i j s t p Hij Hi Hj Hp. split; [|eapply Hr; eauto]. intros Hq.
    apply (tiles_disjoint m out xo yo w h (map o ss) i j (o s) (o t) p); auto;
      rewrite nth_error_map, ?Hi, ?Hj; reflexivity.
Qed.

(** ** Sub-regions *)

Lemma sub_roi im x y w h a b w' h' : roi_in im x y w h ->
  0 <= a -> 0 <= b -> 0 < w' -> 0 < h' -> a + w' <= w -> b + h' <= h -> roi_in im (x + a) (y + b) w' h'.
Proof. intros [] ? ? ? ? ? ?. constructor; lia. Qed.

Lemma sub_hazard p xp yp q xq yq w h a b w' h' : no_hazard p xp yp q xq yq w h ->
  0 <= a -> 0 <= b -> a + w' <= w -> b + h' <= h ->
  no_hazard p (xp + a) (yp + b) q (xq + a) (yq + b) w' h'.
Proof.
  intros N Ha Hb Hw Hh i j c i' j' c' (Hi & Hj & Hc) (Hi' & Hj' & Hc') He.
  rewrite <- !Z.add_assoc in He. apply N in He; unfold inside; lia.
Qed.

Lemma sub_disjoint p xp yp wp hp q xq yq wq hq a b w1 h1 a' b' w2 h2 :
  disjoint p xp yp wp hp q xq yq wq hq ->
  0 <= a -> 0 <= b -> a + w1 <= wp -> b + h1 <= hp ->
  0 <= a' -> 0 <= b' -> a' + w2 <= wq -> b' + h2 <= hq ->
  disjoint p (xp + a) (yp + b) w1 h1 q (xq + a') (yq + b') w2 h2.
Proof.
  intros N ? ? ? ? ? ? ? ? i j c i' j' c' (Hi & Hj & Hc) (Hi' & Hj' & Hc') He.
  rewrite <- !Z.add_assoc in He. apply N in He; auto; unfold inside; lia.
Qed.

(** Samples of the two regions share memory only at equal positions. *)
Definition aligned (out : image) (xo yo : Z) (inp : image) (xi yi w h : Z) : Prop :=
  forall i j c i' j' c', inside w h (icc out) i j c -> inside w h (icc inp) i' j' c' ->
    px out (xo + i) (yo + j) c = px inp (xi + i') (yi + j') c' -> i = i' /\ j = j'.

Lemma aligned_hazard out xo yo inp xi yi w h : no_hazard out xo yo inp xi yi w h -> aligned out xo yo inp xi yi w h.
Proof. intros N i j c i' j' c' H1 H2 He. destruct (N _ _ _ _ _ _ H1 H2 He) as (? & ? & ?). auto. Qed.
Lemma aligned_disjoint out xo yo inp xi yi w h : disjoint out xo yo w h inp xi yi w h -> aligned out xo yo inp xi yi w h.
Proof. intros N i j c i' j' c' H1 H2 He. destruct (N _ _ _ _ _ _ H1 H2 He). Qed.

Lemma aligned_tiles out xo yo inp xi yi w h l i j s t p :
  aligned out xo yo inp xi yi w h -> tiling l 0 0 w h ->
  nth_error l i = Some s -> nth_error l j = Some t -> i <> j ->
  tile_of out xo yo s p -> tile_of inp xi yi t p -> False.
Proof.
  intros A (T1 & _ & T3) Hi Hj Hij (a & b & c & (Ha & Hb & Hc) & E1) (a' & b' & c' & (Ha' & Hb' & Hc') & E2).
  pose proof (T1 s (nth_error_In _ _ Hi)). pose proof (T1 t (nth_error_In _ _ Hj)).
  destruct (A (sx s + a) (sy s + b) c (sx t + a') (sy t + b') c'); try (unfold inside; lia).
  - rewrite !Z.add_assoc, <- E1, <- E2. reflexivity.
  - apply Hij. apply (T3 i j s t (sx s + a) (sy s + b)); auto; unfold covers; lia.
Qed.

(** ** The strips the calls use *)

Lemma area_calc {E} m im x y w h n : area m im x y w h -> 0 < n ->
  @area_calculate E x y w h n = Ok (map (place x y) (calc_strips w h n)).
Proof.
  intros [W R] Hn. destruct (wf_bounds _ _ W) as (B1 & B2 & _). destruct R.
  apply area_calculate_rel; lia.
Qed.

Lemma zip2_map {S A B C} (f : A -> B -> C) (g : S -> A) (k : S -> B) l :
  zip2 f (map g l) (map k l) = map (fun s => f (g s) (k s)) l.
Proof.
  unfold zip2. induction l as [|s l IH]; cbn [map combine fst snd]; [reflexivity|]. rewrite IH. reflexivity.
Qed.
Lemma combine_map {S A B} (g : S -> A) (k : S -> B) l :
  combine (map g l) (map k l) = map (fun s => (g s, k s)) l.
Proof. induction l as [|s l IH]; cbn [map combine]; [reflexivity|]. rewrite IH. reflexivity. Qed.

Lemma calc_facts w h n : 0 < w -> 0 < h -> 0 < n ->
  tiling (calc_strips w h n) 0 0 w h /\ (length (calc_strips w h n) <= Z.to_nat n)%nat /\
  forall s, In s (calc_strips w h n) -> 0 <= sx s /\ 0 <= sy s /\ 0 < sw s /\ 0 < sh s /\ sx s + sw s <= w /\ sy s + sh s <= h.
Proof.
  intros Hw Hh Hn. pose proof (calc_strips_tiling w h n Hw Hh Hn) as T. pose proof (calc_strips_length w h n Hw Hh Hn).
  split; [exact T|]. split; [lia|]. intros s Hs. destruct T as (T & _). specialize (T s Hs). lia.
Qed.

Lemma has_threads_true n : 0 < n -> has_threads n = true.
Proof. intros H. unfold has_threads. destruct (Z.eqb_spec n 0); [lia|reflexivity]. Qed.

(** ** The schemes of function_pool.cpp *)

Section Pool1.
  Variables (pre : image -> image -> bool) (F : image -> Z -> Z -> image -> Z -> Z -> Z -> Z -> code)
            (G : mem -> image -> Z -> Z -> image -> Z -> Z -> Z -> Z -> res mem mem)
            (V : Z -> Z -> Z -> Z) (n : Z) (m : mem) (inp : image) (xi yi : Z) (out : image) (xo yo w h : Z).
  Hypotheses (Hn : 0 < n) (A1 : area m inp xi yi w h) (Ao : area m out xo yo w h)
    (Hpre : pre inp out = true) (Hal : aligned out xo yo inp xi yi w h).
  Hypothesis Hstrip : forall a b w' h', 0 <= a -> 0 <= b -> 0 < w' -> 0 < h' -> a + w' <= w -> b + h' <= h ->
    strip_ok (F inp (xi + a) (yi + b) out (xo + a) (yo + b) w' h')
      (fun m => G m inp (xi + a) (yi + b) out (xo + a) (yo + b) w' h')
      (in_roi out (xo + a) (yo + b) w' h') (in_roi inp (xi + a) (yi + b) w' h') /\
    writes (G m inp (xi + a) (yi + b) out (xo + a) (yo + b) w' h') m out (xo + a) (yo + b) w' h'
      (fun i j c => V (a + i) (b + j) c).

  Lemma pool1_schedules :
    every_schedule (Z.to_nat n) (fun s => pool1 pre F n s m inp xi yi out xo yo w h)
      (fun M => writes (Ok M : res mem mem) m out xo yo w h V).
  Proof.
    assert (Hwh : 0 < w /\ 0 < h) by (destruct A1 as [_ []]; auto).
    destruct (calc_facts w h n) as (T & L & In_); try lia.
    unfold pool1, valid_roi2. rewrite !(valid_roi_ok m) by (apply A1 || apply Ao). cbn [andb].
    rewrite has_threads_true, Hpre by assumption.
    rewrite (area_calc m inp) by assumption. rewrite (area_calc m out) by assumption. cbn [bind].
    rewrite zip2_map.
    apply (tiles_process m out xo yo w h V (calc_strips w h n) (fun s => s)
             _ (fun s m => G m inp (xi + sx s) (yi + sy s) out (xo + sx s) (yo + sy s) (sw s) (sh s))
             (fun s => tile_of inp xi yi s)); auto.
    - rewrite map_id. exact T.
    - intros s Hs. specialize (In_ s Hs). unfold place; cbn [sx sy sw sh]. apply Hstrip; lia.
    - intros i j s t p Hij Hi Hj Hp Hq. apply (aligned_tiles out xo yo inp xi yi w h (calc_strips w h n) i j s t p); auto.
  Qed.
End Pool1.

Section Pool2.
  Variables (F : image -> Z -> Z -> image -> Z -> Z -> image -> Z -> Z -> Z -> Z -> code)
            (G : mem -> image -> Z -> Z -> image -> Z -> Z -> image -> Z -> Z -> Z -> Z -> res mem mem)
            (V : Z -> Z -> Z -> Z) (n : Z) (m : mem) (in1 : image) (x1 y1 : Z) (in2 : image) (x2 y2 : Z)
            (out : image) (xo yo w h : Z).
  Hypotheses (Hn : 0 < n) (A1 : area m in1 x1 y1 w h) (A2 : area m in2 x2 y2 w h) (Ao : area m out xo yo w h)
    (Hal1 : aligned out xo yo in1 x1 y1 w h) (Hal2 : aligned out xo yo in2 x2 y2 w h).
  Hypothesis Hstrip : forall a b w' h', 0 <= a -> 0 <= b -> 0 < w' -> 0 < h' -> a + w' <= w -> b + h' <= h ->
    strip_ok (F in1 (x1 + a) (y1 + b) in2 (x2 + a) (y2 + b) out (xo + a) (yo + b) w' h')
      (fun m => G m in1 (x1 + a) (y1 + b) in2 (x2 + a) (y2 + b) out (xo + a) (yo + b) w' h')
      (in_roi out (xo + a) (yo + b) w' h')
      (fun p => in_roi in1 (x1 + a) (y1 + b) w' h' p \/ in_roi in2 (x2 + a) (y2 + b) w' h' p) /\
    writes (G m in1 (x1 + a) (y1 + b) in2 (x2 + a) (y2 + b) out (xo + a) (yo + b) w' h') m out (xo + a) (yo + b) w' h'
      (fun i j c => V (a + i) (b + j) c).

  Lemma pool2_schedules :
    every_schedule (Z.to_nat n) (fun s => pool2 F n s m in1 x1 y1 in2 x2 y2 out xo yo w h)
      (fun M => writes (Ok M : res mem mem) m out xo yo w h V).
  Proof.
    assert (Hwh : 0 < w /\ 0 < h) by (destruct A1 as [_ []]; auto).
    destruct (calc_facts w h n) as (T & L & In_); try lia.
    unfold pool2, valid_roi3, valid_roi2. rewrite !(valid_roi_ok m) by (apply A1 || apply A2 || apply Ao). cbn [andb].
    rewrite has_threads_true by assumption.
    rewrite (area_calc m in1) by assumption. rewrite (area_calc m in2) by assumption.
    rewrite (area_calc m out) by assumption. cbn [bind].
    rewrite combine_map, zip2_map.
    apply (tiles_process m out xo yo w h V (calc_strips w h n) (fun s => s)
             _ (fun s m => G m in1 (x1 + sx s) (y1 + sy s) in2 (x2 + sx s) (y2 + sy s) out (xo + sx s) (yo + sy s) (sw s) (sh s))
             (fun s p => tile_of in1 x1 y1 s p \/ tile_of in2 x2 y2 s p)); auto.
    - rewrite map_id. exact T.
    - intros s Hs. specialize (In_ s Hs). unfold place; cbn [sx sy sw sh fst snd]. apply Hstrip; lia.
    - intros i j s t p Hij Hi Hj Hp [Hq|Hq].
      + apply (aligned_tiles out xo yo in1 x1 y1 w h (calc_strips w h n) i j s t p); auto.
      + apply (aligned_tiles out xo yo in2 x2 y2 w h (calc_strips w h n) i j s t p); auto.
  Qed.
End Pool2.

Lemma pool_Merge_schedules V n m in1 x1 y1 in2 x2 y2 in3 x3 y3 out xo yo w h :
  0 < n -> area m in1 x1 y1 w h -> area m in2 x2 y2 w h -> area m in3 x3 y3 w h -> area m out xo yo w h ->
  aligned out xo yo in1 x1 y1 w h -> aligned out xo yo in2 x2 y2 w h -> aligned out xo yo in3 x3 y3 w h ->
  (forall a b w' h', 0 <= a -> 0 <= b -> 0 < w' -> 0 < h' -> a + w' <= w -> b + h' <= h ->
    strip_ok (Merge_code in1 (x1 + a) (y1 + b) in2 (x2 + a) (y2 + b) in3 (x3 + a) (y3 + b) out (xo + a) (yo + b) w' h')
      (fun m => Merge m in1 (x1 + a) (y1 + b) in2 (x2 + a) (y2 + b) in3 (x3 + a) (y3 + b) out (xo + a) (yo + b) w' h')
      (in_roi out (xo + a) (yo + b) w' h')
      (fun p => in_roi in1 (x1 + a) (y1 + b) w' h' p \/ in_roi in2 (x2 + a) (y2 + b) w' h' p
                \/ in_roi in3 (x3 + a) (y3 + b) w' h' p) /\
    writes (Merge m in1 (x1 + a) (y1 + b) in2 (x2 + a) (y2 + b) in3 (x3 + a) (y3 + b) out (xo + a) (yo + b) w' h')
      m out (xo + a) (yo + b) w' h' (fun i j c => V (a + i) (b + j) c)) ->
  every_schedule (Z.to_nat n) (fun s => pool_Merge n s m in1 x1 y1 in2 x2 y2 in3 x3 y3 out xo yo w h)
    (fun M => writes (Ok M : res mem mem) m out xo yo w h V).
Proof.
  intros Hn A1 A2 A3 Ao Hal1 Hal2 Hal3 Hstrip.
  assert (Hwh : 0 < w /\ 0 < h) by (destruct A1 as [_ []]; auto).
  destruct (calc_facts w h n) as (T & L & In_); try lia.
  unfold pool_Merge, valid_roi3, valid_roi2. rewrite !(valid_roi_ok m) by (apply A1 || apply A2 || apply A3 || apply Ao). cbn [andb].
  rewrite has_threads_true by assumption.
  rewrite (area_calc m in1) by assumption. rewrite (area_calc m in2) by assumption.
  rewrite (area_calc m in3) by assumption. rewrite (area_calc m out) by assumption. cbn [bind].
  rewrite !combine_map, zip2_map.
  apply (tiles_process m out xo yo w h V (calc_strips w h n) (fun s => s)
           _ (fun s m => Merge m in1 (x1 + sx s) (y1 + sy s) in2 (x2 + sx s) (y2 + sy s) in3 (x3 + sx s) (y3 + sy s)
                           out (xo + sx s) (yo + sy s) (sw s) (sh s))
           (fun s p => tile_of in1 x1 y1 s p \/ tile_of in2 x2 y2 s p \/ tile_of in3 x3 y3 s p)); auto.
  - rewrite map_id. exact T.
  - intros s Hs. specialize (In_ s Hs). unfold place; cbn [sx sy sw sh fst snd]. apply Hstrip; lia.
  - intros i j s t p Hij Hi Hj Hp [Hq|[Hq|Hq]].
    + apply (aligned_tiles out xo yo in1 x1 y1 w h (calc_strips w h n) i j s t p); auto.
    + apply (aligned_tiles out xo yo in2 x2 y2 w h (calc_strips w h n) i j s t p); auto.
    + apply (aligned_tiles out xo yo in3 x3 y3 w h (calc_strips w h n) i j s t p); auto.
Qed.

(** ** Three outputs *)

Lemma pool_Split_schedules V1 V2 V3 n m inp xi yi o1 x1 y1 o2 x2 y2 o3 x3 y3 w h :
  0 < n -> area m inp xi yi w h -> area m o1 x1 y1 w h -> area m o2 x2 y2 w h -> area m o3 x3 y3 w h ->
  icc inp = 3 -> icc o1 = 1 -> icc o2 = 1 -> icc o3 = 1 ->
  disjoint inp xi yi w h o1 x1 y1 w h -> disjoint inp xi yi w h o2 x2 y2 w h ->
  disjoint inp xi yi w h o3 x3 y3 w h ->
  disjoint o1 x1 y1 w h o2 x2 y2 w h -> disjoint o1 x1 y1 w h o3 x3 y3 w h ->
  disjoint o2 x2 y2 w h o3 x3 y3 w h ->
  (forall a b w' h', 0 <= a -> 0 <= b -> 0 < w' -> 0 < h' -> a + w' <= w -> b + h' <= h ->
    writes3 (Split m inp (xi + a) (yi + b) o1 (x1 + a) (y1 + b) o2 (x2 + a) (y2 + b) o3 (x3 + a) (y3 + b) w' h')
      m o1 (x1 + a) (y1 + b) o2 (x2 + a) (y2 + b) o3 (x3 + a) (y3 + b) w' h'
      (fun i j => V1 (a + i) (b + j)) (fun i j => V2 (a + i) (b + j)) (fun i j => V3 (a + i) (b + j))) ->
  every_schedule (Z.to_nat n) (fun s => pool_Split n s m inp xi yi o1 x1 y1 o2 x2 y2 o3 x3 y3 w h)
    (fun M => writes3 (Ok M : res mem mem) m o1 x1 y1 o2 x2 y2 o3 x3 y3 w h V1 V2 V3).
Proof.
  intros Hn Ai A1 A2 A3 Ci C1 C2 C3 D1 D2 D3 D12 D13 D23 Hw.
  assert (Hwh : 0 < w /\ 0 < h) by (destruct Ai as [_ []]; auto).
  destruct (calc_facts w h n) as (T & L & In_); try lia.
  unfold pool_Split, valid_roi3, valid_roi2. rewrite !(valid_roi_ok m) by (apply A1 || apply A2 || apply A3 || apply Ai).
  rewrite rgb_true, !gray_true by assumption. cbn [andb].
  rewrite has_threads_true by assumption.
  rewrite (area_calc m inp) by assumption. rewrite (area_calc m o1) by assumption. rewrite (area_calc m o2) by assumption.
  rewrite (area_calc m o3) by assumption. cbn [bind].
  rewrite !combine_map, zip2_map.
  destruct Ai as [Wi Ri], A1 as [W1 R1], A2 as [W2 R2], A3 as [W3 R3].
  set (B := fun s m => Split m inp (xi + sx s) (yi + sy s) o1 (x1 + sx s) (y1 + sy s) o2 (x2 + sx s) (y2 + sy s)
                         o3 (x3 + sx s) (y3 + sy s) (sw s) (sh s)).
  assert (Hb : forall s, In s (calc_strips w h n) -> exists m', B s m = Ok m' /\
     forall i j, inside (sw s) (sh s) 1 i j 0 ->
       pixel m' o1 (x1 + (sx s + i)) (y1 + (sy s + j)) 0 = V1 (sx s + i) (sy s + j) /\
       pixel m' o2 (x2 + (sx s + i)) (y2 + (sy s + j)) 0 = V2 (sx s + i) (sy s + j) /\
       pixel m' o3 (x3 + (sx s + i)) (y3 + (sy s + j)) 0 = V3 (sx s + i) (sy s + j)).
  { intros s Hs. specialize (In_ s Hs). destruct (Hw (sx s) (sy s) (sw s) (sh s)) as (m' & E & Hv & _); try lia.
    exists m'. split; [exact E|]. intros i j Hij. rewrite !Z.add_assoc. apply Hv. exact Hij. }
  eapply every_schedule_weak; [|apply (tiles_gen m (calc_strips w h n) _ B
     (fun s p => tile_of o1 x1 y1 s p \/ tile_of o2 x2 y2 s p \/ tile_of o3 x3 y3 s p)
     (fun s => tile_of inp xi yi s) (Z.to_nat n) L)].
  - intros M (Ln & HW & HF). exists M. split; [reflexivity|]. split; [|split; [exact Ln|]].
    + intros i j (Hi & Hj & _). destruct (T) as (_ & T2 & _).
      destruct (T2 i j) as (k & s & Hk & Hcov); try lia.
      destruct (Hb s (nth_error_In _ _ Hk)) as (m' & E & Hv). destruct (Hcov) as [K1 K2].
      specialize (Hv (i - sx s) (j - sy s) ltac:(unfold inside; lia)). unfold pixel in *.
      replace (sx s + (i - sx s)) with i in Hv by ring. replace (sy s + (j - sy s)) with j in Hv by ring.
      rewrite !(HW k s m' Hk E); [exact Hv| | |];
        [right; right|right; left|left]; apply tile_px; auto; lia.
    + intros p Hp. apply HF. intros s Hs Ht.
      assert (Hx : forall o x y, icc o = 1 -> tile_of o x y s p -> exists i j, inside w h 1 i j 0 /\ p = px o (x + i) (y + j) 0).
      { intros o x y Co H. destruct (tile_roi o x y w h _ s p T Hs H) as (i & j & c & (Hi & Hj & Hc) & E).
        exists i, j. assert (c = 0) by lia. subst c. split; [unfold inside; lia|exact E]. }
      destruct Ht as [Ht|[Ht|Ht]]; apply Hx in Ht as (i & j & Hin & E); auto; destruct (Hp i j Hin) as (N1 & N2 & N3); auto.
  - intros s Hs. destruct (Hb s Hs) as (m' & E & _). split; [|eauto]. specialize (In_ s Hs).
    unfold place; cbn [sx sy sw sh fst snd].
    apply (Split_strip m inp (xi + sx s) (yi + sy s) o1 (x1 + sx s) (y1 + sy s) o2 (x2 + sx s) (y2 + sy s) o3); auto;
      eapply sub_roi; eauto; lia.
  - intros i j s t p Hij Hi Hj Hs.
    assert (Hd : forall a xa ya b xb yb, disjoint a xa ya w h b xb yb w h -> tile_of a xa ya s p -> tile_of b xb yb t p -> False).
    { intros a xa ya b xb yb D Ha Hb'.
      destruct (tile_roi _ _ _ w h _ s p T (nth_error_In _ _ Hi) Ha) as (i1 & j1 & c1 & I1 & E1).
      destruct (tile_roi _ _ _ w h _ t p T (nth_error_In _ _ Hj) Hb') as (i2 & j2 & c2 & I2 & E2).
      apply (D i1 j1 c1 i2 j2 c2); congruence. }
    assert (Hself : forall a xa ya, wf m a -> roi_in a xa ya w h -> tile_of a xa ya s p -> tile_of a xa ya t p -> False).
    { intros a xa ya Wa Ra Ha Ha'. apply (tiles_disjoint m a xa ya w h (calc_strips w h n) i j s t p); auto. }
    pose proof (disjoint_sym _ _ _ _ _ _ _ _ _ _ D1). pose proof (disjoint_sym _ _ _ _ _ _ _ _ _ _ D2).
    pose proof (disjoint_sym _ _ _ _ _ _ _ _ _ _ D3). pose proof (disjoint_sym _ _ _ _ _ _ _ _ _ _ D12).
    pose proof (disjoint_sym _ _ _ _ _ _ _ _ _ _ D13). pose proof (disjoint_sym _ _ _ _ _ _ _ _ _ _ D23).
    split.
    + intros [Ht|[Ht|Ht]]; destruct Hs as [Hs|[Hs|Hs]]; eauto.
    + intros Ht. destruct Hs as [Hs|[Hs|Hs]]; eauto.
Qed.

(** ** Flip *)

(** The strip of the output that strip [s] of the input goes to. *)
Definition mirror (hor ver : bool) (w h : Z) (s : strip) : strip :=
  mkStrip (if hor then w - sx s - sw s else sx s) (if ver then h - sy s - sh s else sy s) (sw s) (sh s).

Lemma mirror_tiling hor ver w h l : tiling l 0 0 w h -> tiling (map (mirror hor ver w h) l) 0 0 w h.
Proof.
  intros (T1 & T2 & T3). split; [|split].
  - intros s Hs. apply in_map_iff in Hs as (t & <- & Ht). specialize (T1 t Ht).
    unfold mirror; cbn [sx sy sw sh]. destruct hor, ver; lia.
  - intros a b Ha Hb.
    destruct (T2 (if hor then w - 1 - a else a) (if ver then h - 1 - b else b)) as (i & s & Hi & Hc);
      try (destruct hor; lia); try (destruct ver; lia).
    exists i, (mirror hor ver w h s). split; [rewrite nth_error_map, Hi; reflexivity|].
    unfold covers, mirror in *; cbn [sx sy sw sh]. destruct hor, ver; lia.
  - intros i i' s s' a b E1 E2 C1 C2. rewrite nth_error_map in E1, E2.
    destruct (nth_error l i) as [s1|] eqn:F1; [|discriminate].
    destruct (nth_error l i') as [s2|] eqn:F2; [|discriminate].
    cbn [option_map] in E1, E2. injection E1 as <-. injection E2 as <-.
    apply (T3 i i' s1 s2 (if hor then w - 1 - a else a) (if ver then h - 1 - b else b)); auto;
      unfold covers, mirror in *; cbn [sx sy sw sh] in *; destruct hor, ver; lia.
Qed.

(** The strips are whole rows at increasing heights, or whole columns. *)
Lemma calc_shape w h n : 0 < w -> 0 < h -> 0 < n ->
  (forall s, In s (calc_strips w h n) -> sx s = 0 /\ sw s = w) /\
  (forall a b l, calc_strips w h n = a :: b :: l -> sy a <> sy b) \/
  (forall s, In s (calc_strips w h n) -> sy s = 0 /\ sh s = h).
Proof.
  intros Hw Hh Hn. destruct (calc_count_ok w h n Hw Hh Hn) as [H1 _].
  unfold calc_strips, rel_strips. destruct (calc_count w h n) as [cnt ax]. cbn [fst snd] in *. destruct ax.
  - left. pose proof (axis_cuts_chain h cnt H1) as Hch. split.
    + intros s Hs. apply in_map_iff in Hs as ([a k] & <- & _). cbn [sx sw]. auto.
    + intros a b l E. destruct (axis_cuts h cnt) as [|[a1 n1] [|[a2 n2] l']]; try discriminate.
      cbn [map fst snd] in E. injection E as <- <- _. cbn [sy].
      inversion Hch as [|? ? ? ? Hn1 Hch2]; subst. inversion Hch2; subst. lia.
  - right. intros s Hs. apply in_map_iff in Hs as ([a k] & <- & _). cbn [sy sh]. auto.
Qed.

Lemma flip_strips_mirror hor ver m out xo yo w h n : area m out xo yo w h -> 0 < n ->
  flip_strips hor ver xo yo w h (map (place xo yo) (calc_strips w h n))
  = map (place xo yo) (map (mirror hor ver w h) (calc_strips w h n)).
Proof.
  intros [W R] Hn. destruct (wf_bounds _ _ W) as (B1 & B2 & _).
  assert (Hwh : 0 < w /\ 0 < h) by (destruct R; auto).
  destruct (calc_facts w h n) as (T & L & In_); try lia.
  assert (Hone : forall s, calc_strips w h n = [s] -> sx s = 0 /\ sy s = 0 /\ sw s = w /\ sh s = h).
  { intros s E. rewrite E in T. destruct T as (T1 & T2 & _). specialize (T1 s (or_introl eq_refl)).
    destruct (T2 0 0) as ([|i] & t & Ht & Hc); try lia; cbn in Ht; [|destruct i; discriminate]. injection Ht as <-.
    destruct (T2 (w - 1) (h - 1)) as ([|i] & t & Ht & Hc'); try lia; cbn in Ht; [|destruct i; discriminate]. injection Ht as <-.
    unfold covers in *. lia. }
  assert (Hx : 0 <= xo) by apply R. assert (Hy : 0 <= yo) by apply R.
  assert (xo + w < W32 /\ yo + h < W32) as [Hxw Hyh] by (destruct R; lia).
  rewrite map_map.
  destruct (calc_shape w h n) as [[S1 S2]|S1]; try lia.
  - assert (Hcase : (exists s, calc_strips w h n = [s]) \/ calc_strips w h n = [] \/
       exists a b l, calc_strips w h n = a :: b :: l /\ sy a <> sy b).
    { destruct (calc_strips w h n) as [|a [|b l]]; eauto. right; right. exists a, b, l. split; [reflexivity|]. eapply S2. reflexivity. }
    destruct Hcase as [(s & E)|[E|(a & b & l & E & Hne)]].
    + specialize (Hone s E). rewrite E. cbn [map flip_strips]. unfold place, mirror; cbn [sx sy sw sh].
      f_equal. destruct hor, ver; f_equal; lia.
    + rewrite E. reflexivity.
    + assert (G : flip_strips hor ver xo yo w h (map (place xo yo) (calc_strips w h n))
        = if ver then map (fun s => mkStrip (sx s) (u32 (2 * yo + h - (sy s + sh s))) (sw s) (sh s)) (map (place xo yo) (calc_strips w h n))
          else map (place xo yo) (calc_strips w h n)).
      { rewrite E. cbn [map flip_strips]. destruct (Z.eqb_spec (sy (place xo yo a)) (sy (place xo yo b))) as [He|]; [|reflexivity].
        unfold place in He; cbn [sy] in He. lia. }
      rewrite G. destruct ver.
      * rewrite map_map. apply map_ext_in. intros s Hs. specialize (In_ s Hs). specialize (S1 s Hs).
        unfold place, mirror; cbn [sx sy sw sh]. rewrite u32_small by lia. f_equal; [destruct hor|]; lia.
      * apply map_ext_in. intros s Hs. specialize (S1 s Hs). unfold place, mirror; cbn [sx sy sw sh].
        f_equal. destruct hor; lia.
  - assert (Hcase : (exists s, calc_strips w h n = [s]) \/ calc_strips w h n = [] \/
       exists a b l, calc_strips w h n = a :: b :: l /\ sy a = sy b).
    { destruct (calc_strips w h n) as [|a [|b l]]; eauto. right; right. exists a, b, l. split; [reflexivity|].
      destruct (S1 a); [left; reflexivity|]. destruct (S1 b); [right; left; reflexivity|]. lia. }
    destruct Hcase as [(s & E)|[E|(a & b & l & E & Hne)]].
    + specialize (Hone s E). rewrite E. cbn [map flip_strips]. unfold place, mirror; cbn [sx sy sw sh].
      f_equal. destruct hor, ver; f_equal; lia.
    + rewrite E. reflexivity.
    + assert (G : flip_strips hor ver xo yo w h (map (place xo yo) (calc_strips w h n))
        = if hor then map (fun s => mkStrip (u32 (2 * xo + w - (sx s + sw s))) (sy s) (sw s) (sh s)) (map (place xo yo) (calc_strips w h n))
          else map (place xo yo) (calc_strips w h n)).
      { rewrite E. cbn [map flip_strips]. destruct (Z.eqb_spec (sy (place xo yo a)) (sy (place xo yo b))) as [|He]; [reflexivity|].
        unfold place in He; cbn [sy] in He. lia. }
      rewrite G. destruct hor.
      * rewrite map_map. apply map_ext_in. intros s Hs. specialize (In_ s Hs). specialize (S1 s Hs).
        unfold place, mirror; cbn [sx sy sw sh]. rewrite u32_small by lia. f_equal; [|destruct ver]; lia.
      * apply map_ext_in. intros s Hs. specialize (S1 s Hs). unfold place, mirror; cbn [sx sy sw sh].
        f_equal. destruct ver; lia.
Qed.

Lemma pool_Flip_schedules hor ver n m inp xi yi out xo yo w h :
  0 < n -> hor || ver = true -> area m inp xi yi w h -> area m out xo yo w h -> icc inp = 1 -> icc out = 1 ->
  disjoint out xo yo w h inp xi yi w h ->
  every_schedule (Z.to_nat n) (fun s => pool_Flip hor ver n s m inp xi yi out xo yo w h)
    (fun M => writes (Ok M : res mem mem) m out xo yo w h
       (fun i j c => pixel m inp (xi + (if hor then w - 1 - i else i)) (yi + (if ver then h - 1 - j else j)) c)).
Proof.
  intros Hn Hhv A1 Ao Ci Co D.
  assert (Hwh : 0 < w /\ 0 < h) by (destruct A1 as [_ []]; auto).
  destruct (calc_facts w h n) as (T & L & In_); try lia.
  unfold pool_Flip. replace (negb hor && negb ver) with false by (destruct hor, ver; auto; discriminate).
  unfold valid_roi2. rewrite !(valid_roi_ok m) by (apply A1 || apply Ao). rewrite !gray_true by assumption. cbn [andb].
  rewrite has_threads_true by assumption.
  rewrite (area_calc m inp) by assumption. rewrite (area_calc m out) by assumption. cbn [bind].
  rewrite (flip_strips_mirror hor ver m out) by assumption.
  rewrite map_map, zip2_map.
  destruct A1 as [W1 R1]. destruct (Ao) as [Wo Ro].
  apply (tiles_process m out xo yo w h _ (calc_strips w h n) (mirror hor ver w h)
           _ (fun s m => Flip m inp (xi + sx s) (yi + sy s) out (xo + sx (mirror hor ver w h s)) (yo + sy (mirror hor ver w h s))
                           (sw s) (sh s) hor ver)
           (fun s => tile_of inp xi yi s)); auto.
  - apply mirror_tiling. exact T.
  - intros s Hs. specialize (In_ s Hs).
    assert (Hm : 0 <= sx (mirror hor ver w h s) /\ 0 <= sy (mirror hor ver w h s) /\
                 sx (mirror hor ver w h s) + sw s <= w /\ sy (mirror hor ver w h s) + sh s <= h).
    { unfold mirror; cbn [sx sy]. destruct hor, ver; lia. }
    assert (R1' : roi_in inp (xi + sx s) (yi + sy s) (sw s) (sh s)) by (eapply sub_roi; eauto; lia).
    assert (Ro' : roi_in out (xo + sx (mirror hor ver w h s)) (yo + sy (mirror hor ver w h s)) (sw s) (sh s)) by (eapply sub_roi; eauto; lia).
    assert (D' : disjoint out (xo + sx (mirror hor ver w h s)) (yo + sy (mirror hor ver w h s)) (sw s) (sh s)
                   inp (xi + sx s) (yi + sy s) (sw s) (sh s)) by (eapply sub_disjoint; eauto; lia).
    split.
    + apply (Flip_strip m); auto.
    + eapply writes_ext; [apply Flip_writes; auto|]. intros i j c Hi. cbv beta.
      unfold mirror; cbn [sx sy sw sh].
      f_equal; [destruct hor|destruct ver]; ring.
  - intros i j s t p Hij Hi Hj Hp Hq.
    destruct (tile_roi _ _ _ w h _ _ p (mirror_tiling hor ver w h _ T) (in_map _ _ _ (nth_error_In _ _ Hi)) Hp) as (i1 & j1 & c1 & I1 & E1).
    destruct (tile_roi _ _ _ w h _ t p T (nth_error_In _ _ Hj) Hq) as (i2 & j2 & c2 & I2 & E2).
    apply (D i1 j1 c1 i2 j2 c2); congruence.
Qed.

(** ** Transpose *)

Definition swap (s : strip) : strip := mkStrip (sy s) (sx s) (sh s) (sw s).

Lemma swap_rel w h cnt ax : map swap (rel_strips w h cnt ax) = rel_strips h w cnt (negb ax).
Proof. unfold rel_strips. destruct ax; cbn [negb]; rewrite map_map; reflexivity. Qed.

Lemma rows_only_cols l x y h : rows_only (map (fun s => mkStrip (x + fst s) y (snd s) h) l) = true ->
  forall b, chain 0 l b -> (length l <= 1)%nat.
Proof.
  destruct l as [|[a1 n1] [|[a2 n2] l]]; intros H b Hc; cbn [length]; try lia. exfalso.
  inversion Hc as [|? ? ? ? Hn1 Hch2]; subst. inversion Hch2; subst.
  cbn [map rows_only fst snd sx sw] in H. match type of H with context [?a =? ?b] => destruct (Z.eqb_spec a b) as [He|He]; [lia|] end. discriminate.
Qed.
Lemma rows_only_rows l (x w : Z) (f : Z * Z -> Z) : rows_only (map (fun s => mkStrip x (f s) w (snd s)) l) = true.
Proof.
  induction l as [|a [|b l] IH]; auto. cbn [map rows_only sx sw] in *. rewrite !Z.eqb_refl. cbn [negb orb]. exact IH.
Qed.
Lemma rows_only_rel w h cnt (ax : bool) x y : 0 < cnt <= (if ax then h else w) ->
  rows_only (map (place x y) (rel_strips w h cnt ax)) = (ax || (cnt =? 1))%bool.
Proof.
  intros Hc. unfold rel_strips. destruct ax.
  - rewrite map_map. cbn [orb]. unfold place; cbn [sx sy sw sh]. apply rows_only_rows with (f := fun s => y + fst s).
  - rewrite map_map. unfold place; cbn [sx sy sw sh orb]. rewrite Z.add_0_r.
    pose proof (axis_cuts_chain w cnt Hc) as Hch.
    assert (Hl : Z.of_nat (length (axis_cuts w cnt)) = cnt).
    { pose proof (rel_strips_length w h cnt false). unfold rel_strips in H. rewrite map_length in H. apply H; lia. }
    destruct (rows_only _) eqn:E.
    + pose proof (rows_only_cols _ _ _ _ E _ Hch). destruct (Z.eqb_spec cnt 1); auto; lia.
    + destruct (Z.eqb_spec cnt 1) as [->|]; auto.
Qed.

Lemma rel_one w h ax : 0 < w -> 0 < h -> rel_strips w h 1 ax = [mkStrip 0 0 w h].
Proof.
  intros Hw Hh. unfold rel_strips, axis_cuts. rewrite !Z.div_1_r, !Z.mod_1_r. destruct ax; reflexivity.
Qed.
Lemma rel_nonempty w h cnt (ax : bool) x y : 0 < cnt -> map (place x y) (rel_strips w h cnt ax) <> [].
Proof.
  intros Hc H. apply map_eq_nil in H. unfold rel_strips, axis_cuts in H.
  destruct (Z.to_nat cnt) eqn:E; [lia|]. destruct ax; discriminate H.
Qed.

(** The strips of Resize and Transpose: the number of tasks comes from the smaller sizes. *)
Lemma resize_strips_rel {E} n xi yi wi hi xo yo wo ho (opp : bool) :
  0 < n -> 0 < wi -> 0 < hi -> 0 < wo -> 0 < ho ->
  0 <= xi -> 0 <= yi -> xi + wi < W32 -> yi + hi < W32 ->
  0 <= xo -> 0 <= yo -> xo + wo < W32 -> yo + ho < W32 ->
  (opp = true -> wo = hi /\ ho = wi) ->
  exists cnt (ax : bool), 0 < cnt <= n /\
    0 < cnt <= (if ax then Z.min hi (if opp then wo else ho) else Z.min wi (if opp then ho else wo)) /\
    (opp = false -> (cnt, ax) = calc_count (Z.min wi wo) (Z.min hi ho) n) /\
    @resize_strips E n xi yi wi hi xo yo wo ho opp
    = Ok (map (place xi yi) (rel_strips wi hi cnt ax), map (place xo yo) (rel_strips wo ho cnt (xorb opp ax))).
Proof.
  intros Hn Hwi Hhi Hwo Hho Hxi Hyi Bxi Byi Hxo Hyo Bxo Byo Hopp.
  destruct (calc_count_ok (Z.min wi wo) (Z.min hi ho) n) as [H1 H2]; try lia.
  unfold resize_strips.
  rewrite area_calculate_rel by lia. rewrite area_calculate_rel by lia. cbn [bind].
  unfold calc_strips at 2. destruct (calc_count (Z.min wi wo) (Z.min hi ho) n) as [cnt ax]. cbn [fst snd] in *.
  assert (HL : Z.of_nat (length (rel_strips (Z.min wi wo) (Z.min hi ho) cnt ax)) = cnt) by (apply rel_strips_length; lia).
  unfold area_copy at 1.
  destruct (map (place xi yi) (rel_strips (Z.min wi wo) (Z.min hi ho) cnt ax)) as [|s0 l0] eqn:E1.
  { exfalso. apply (rel_nonempty (Z.min wi wo) (Z.min hi ho) cnt ax xi yi); auto; lia. }
  rewrite <- E1. rewrite map_length, HL. rewrite rows_only_rel by lia.
  assert (Hax : exists ax1, (ax1 = (if opp then negb (ax || (cnt =? 1)) else (ax || (cnt =? 1)))%bool) /\
                0 < cnt <= (if ax1 then ho else wo)).
  { eexists. split; [reflexivity|]. destruct (Z.eqb_spec cnt 1); destruct ax, opp; cbn [orb negb]; try lia;
      destruct Hopp; auto; lia. }
  destruct Hax as (ax1 & Hax1 & Hc1). rewrite <- Hax1.
  rewrite area_fill_rel by lia. cbn [bind]. unfold area_copy.
  destruct (map (place xo yo) (rel_strips wo ho cnt ax1)) as [|s1 l1] eqn:E2.
  { exfalso. apply (rel_nonempty wo ho cnt ax1 xo yo); auto; lia. }
  rewrite <- E2. rewrite map_length. rewrite rel_strips_length by lia. rewrite rows_only_rel by lia.
  destruct (Z.eqb_spec cnt 1) as [->|Hne].
  - rewrite area_fill_rel by (destruct opp, ax, ax1; cbn [orb negb]; try lia; destruct Hopp; auto; lia).
    cbn [bind]. rewrite rel_one by lia. rewrite rel_one by lia. exists 1, ax.
    split; [lia|]. split; [destruct ax, opp; lia|]. split; [reflexivity|].
    rewrite !rel_one by lia. reflexivity.
  - rewrite orb_false_r in *. subst ax1. exists cnt, ax. split; [lia|]. split.
    + destruct opp; [destruct Hopp; auto|]; destruct ax; lia.
    + split; [reflexivity|].
      replace (if opp then negb (if opp then negb ax else ax) else if opp then negb ax else ax) with ax by (destruct opp, ax; reflexivity).
      replace (xorb opp ax) with (if opp then negb ax else ax) by (destruct opp, ax; reflexivity).
      rewrite area_fill_rel by (destruct ax; lia). reflexivity.
Qed.

Lemma swap_tiling l w h : tiling l 0 0 w h -> tiling (map swap l) 0 0 h w.
Proof.
  intros (T1 & T2 & T3). split; [|split].
  - intros s Hs. apply in_map_iff in Hs as (t & <- & Ht). specialize (T1 t Ht). unfold swap; cbn [sx sy sw sh]. lia.
  - intros a b Ha Hb. destruct (T2 b a) as (i & s & Hi & Hc); try lia.
    exists i, (swap s). split; [rewrite nth_error_map, Hi; reflexivity|]. unfold covers, swap in *; cbn [sx sy sw sh]. lia.
  - intros i i' s s' a b E1 E2 C1 C2. rewrite nth_error_map in E1, E2.
    destruct (nth_error l i) as [s1|] eqn:F1; [|discriminate].
    destruct (nth_error l i') as [s2|] eqn:F2; [|discriminate].
    cbn [option_map] in E1, E2. injection E1 as <-. injection E2 as <-.
    apply (T3 i i' s1 s2 b a); auto; unfold covers, swap in *; cbn [sx sy sw sh] in *; lia.
Qed.

Lemma pool_Transpose_schedules n m inp xi yi out xo yo w h :
  0 < n -> area m inp xi yi w h -> area m out xo yo h w -> icc inp = 1 -> icc out = 1 ->
  disjoint out xo yo h w inp xi yi w h ->
  every_schedule (Z.to_nat n) (fun s => pool_Transpose n s m inp xi yi out xo yo w h)
    (fun M => writes (Ok M : res mem mem) m out xo yo h w (fun i j c => pixel m inp (xi + j) (yi + i) 0)).
Proof.
  intros Hn A1 Ao Ci Co D. destruct A1 as [W1 R1]. destruct (Ao) as [Wo Ro].
  destruct (wf_bounds _ _ W1) as (B1 & B2 & _). destruct (wf_bounds _ _ Wo) as (B3 & B4 & _).
  assert (Hwh : 0 < w /\ 0 < h) by (destruct R1; auto).
  unfold pool_Transpose. rewrite !(valid_roi_ok m) by assumption. rewrite !gray_true by assumption. cbn [andb].
  rewrite has_threads_true by assumption.
  destruct (@resize_strips_rel mem n xi yi w h xo yo h w true) as (cnt & ax & Hcn & Hc & _ & E);
    try lia; try (destruct R1; lia); try (destruct Ro; lia).
  rewrite E. cbn [bind xorb]. replace (if ax then false else true) with (negb ax) by (destruct ax; reflexivity). rewrite <- swap_rel. rewrite map_map, zip2_map.
  assert (T : tiling (rel_strips w h cnt ax) 0 0 w h) by (apply rel_strips_tiling; destruct ax; lia).
  apply (tiles_process m out xo yo h w _ (rel_strips w h cnt ax) swap
           _ (fun s m => Transpose m inp (xi + sx s) (yi + sy s) out (xo + sy s) (yo + sx s) (sw s) (sh s))
           (fun s => tile_of inp xi yi s)); auto.
  - apply swap_tiling. exact T.
  - assert (Z.of_nat (length (rel_strips w h cnt ax)) = cnt) by (apply rel_strips_length; destruct ax; lia). lia.
  - intros s Hs. destruct (T) as (T1 & _). specialize (T1 s Hs). unfold place, swap; cbn [sx sy sw sh].
    assert (R1' : roi_in inp (xi + sx s) (yi + sy s) (sw s) (sh s)) by (eapply sub_roi; eauto; lia).
    assert (Ro' : roi_in out (xo + sy s) (yo + sx s) (sh s) (sw s)) by (eapply sub_roi; eauto; lia).
    assert (D' : disjoint out (xo + sy s) (yo + sx s) (sh s) (sw s) inp (xi + sx s) (yi + sy s) (sw s) (sh s))
      by (eapply sub_disjoint; eauto; lia).
    split; [apply (Transpose_strip m); auto|].
    eapply writes_ext; [apply Transpose_writes; auto|]. intros i j c Hi. cbv beta. f_equal; ring.
  - intros i j s t p Hij Hi Hj Hp Hq.
    destruct (tile_roi _ _ _ h w _ _ p (swap_tiling _ _ _ T) (in_map _ _ _ (nth_error_In _ _ Hi)) Hp) as (i1 & j1 & c1 & I1 & E1).
    destruct (tile_roi _ _ _ w h _ t p T (nth_error_In _ _ Hj) Hq) as (i2 & j2 & c2 & I2 & E2).
    apply (D i1 j1 c1 i2 j2 c2); congruence.
Qed.

(** ** Resize *)

Lemma cuts_even k : forall q a, cuts k q 0 a = map (fun i => (a + Z.of_nat i * q, q)) (seq 0 k).
Proof.
  induction k as [|k IH]; intros q a; [reflexivity|].
  cbn [cuts seq map Z.ltb Z.compare]. rewrite IH, <- seq_shift, map_map. f_equal; [f_equal; cbn; ring|].
  apply map_ext. intros i. f_equal. lia.
Qed.
Lemma axis_cuts_even h cnt : 0 < cnt -> (cnt | h) ->
  axis_cuts h cnt = map (fun i => (Z.of_nat i * (h / cnt), h / cnt)) (seq 0 (Z.to_nat cnt)).
Proof.
  intros Hc Hd. unfold axis_cuts. apply Z.mod_divide in Hd; [|lia]. rewrite Hd. rewrite cuts_even. reflexivity.
Qed.

Lemma scale_shift k j q p : 0 < q -> (k * q + j) * p / q = k * p + j * p / q.
Proof.
  intros Hq. replace ((k * q + j) * p) with (j * p + k * p * q) by ring. rewrite Z.div_add by lia. ring.
Qed.
Lemma scale_cancel a p q c : 0 < q -> 0 < c -> a * (p * c) / (q * c) = a * p / q.
Proof. intros Hq Hc. rewrite Z.mul_assoc. apply Z.div_mul_cancel_r; lia. Qed.

Lemma pool_Resize_schedules n m inp xi yi wi hi out xo yo wo ho :
  0 < n -> area m inp xi yi wi hi -> area m out xo yo wo ho -> icc inp = icc out ->
  (wo - 1) * wi < W32 -> (ho - 1) * hi < W32 ->
  disjoint out xo yo wo ho inp xi yi wi hi ->
  (let (cnt, ax) := calc_count (Z.min wi wo) (Z.min hi ho) n in
   if ax then (cnt | hi) /\ (cnt | ho) else (cnt | wi) /\ (cnt | wo)) ->
  every_schedule (Z.to_nat n) (fun s => pool_Resize n s m inp xi yi wi hi out xo yo wo ho)
    (fun M => writes (Ok M : res mem mem) m out xo yo wo ho (fun i j c => pixel m inp (xi + i * wi / wo) (yi + j * hi / ho) c)).
Proof.
  intros Hn A1 Ao C Bw Bh D Hdiv. destruct A1 as [W1 R1]. destruct (Ao) as [Wo Ro].
  destruct (wf_bounds _ _ W1) as (B1 & B2 & _). destruct (wf_bounds _ _ Wo) as (B3 & B4 & _).
  assert (Hi0 : 0 < wi /\ 0 < hi) by (destruct R1; auto). assert (Ho0 : 0 < wo /\ 0 < ho) by (destruct Ro; auto).
  unfold pool_Resize. rewrite !(valid_roi_ok m) by assumption.
  rewrite has_threads_true by assumption.
  destruct (@resize_strips_rel mem n xi yi wi hi xo yo wo ho false) as (cnt & ax & Hcn & Hc & Hcc & E);
    try lia; try (destruct R1; lia); try (destruct Ro; lia); try discriminate.
  rewrite <- Hcc in Hdiv by reflexivity. cbn [xorb] in E.
  rewrite E. cbn [bind].
  assert (T : tiling (rel_strips wo ho cnt ax) 0 0 wo ho) by (apply rel_strips_tiling; destruct ax; lia).
  assert (TI : tiling (rel_strips wi hi cnt ax) 0 0 wi hi) by (apply rel_strips_tiling; destruct ax; lia).
  (* the strip of the input for strip [s] of the output *)
  set (f := fun s => if ax then mkStrip 0 (sy s / (ho / cnt) * (hi / cnt)) wi (hi / cnt)
                     else mkStrip (sx s / (wo / cnt) * (wi / cnt)) 0 (wi / cnt) hi).
  assert (Hf : rel_strips wi hi cnt ax = map f (rel_strips wo ho cnt ax)).
  { unfold rel_strips, f. destruct ax; destruct Hdiv as [D1 D2].
    - rewrite !axis_cuts_even by (auto; lia). rewrite !map_map. apply map_ext. intros i. cbn [sx sy sw sh fst snd].
      f_equal. assert (0 < ho / cnt) by (apply Z.div_str_pos; lia). rewrite Z.div_mul by lia. reflexivity.
    - rewrite !axis_cuts_even by (auto; lia). rewrite !map_map. apply map_ext. intros i. cbn [sx sy sw sh fst snd].
      f_equal. assert (0 < wo / cnt) by (apply Z.div_str_pos; lia). rewrite Z.div_mul by lia. reflexivity. }
  (* where the strips are *)
  assert (Hs : forall s, In s (rel_strips wo ho cnt ax) ->
    (forall j, 0 <= j < sh s -> (sy s + j) * hi / ho = sy (f s) + j * sh (f s) / sh s) /\
    (forall i, 0 <= i < sw s -> (sx s + i) * wi / wo = sx (f s) + i * sw (f s) / sw s)).
  { intros s Hs. unfold rel_strips in Hs. destruct ax; destruct Hdiv as [[qi Di] [qo Do]].
    - rewrite axis_cuts_even in Hs by (try lia; exists qo; exact Do). rewrite map_map in Hs.
      apply in_map_iff in Hs as (k & <- & _). unfold f. cbn [sx sy sw sh fst snd].
      assert (Eo : ho / cnt = qo) by (rewrite Do; apply Z.div_mul; lia).
      assert (Ei : hi / cnt = qi) by (rewrite Di; apply Z.div_mul; lia).
      rewrite Eo, Ei. assert (0 < qo) by nia. rewrite Z.div_mul by lia. split; intros j Hj.
      + rewrite Di, Do, scale_cancel by lia. apply scale_shift. lia.
      + reflexivity.
    - rewrite axis_cuts_even in Hs by (try lia; exists qo; exact Do). rewrite map_map in Hs.
      apply in_map_iff in Hs as (k & <- & _). unfold f. cbn [sx sy sw sh fst snd].
      assert (Eo : wo / cnt = qo) by (rewrite Do; apply Z.div_mul; lia).
      assert (Ei : wi / cnt = qi) by (rewrite Di; apply Z.div_mul; lia).
      rewrite Eo, Ei. assert (0 < qo) by nia. rewrite Z.div_mul by lia. split; intros j Hj.
      + reflexivity.
      + rewrite Di, Do, scale_cancel by lia. apply scale_shift. lia. }
  rewrite Hf, map_map. replace (if ax then true else false) with ax by (destruct ax; reflexivity). rewrite zip2_map.
  apply (tiles_process m out xo yo wo ho _ (rel_strips wo ho cnt ax) (fun s => s)
           _ (fun s m => Resize m inp (xi + sx (f s)) (yi + sy (f s)) (sw (f s)) (sh (f s))
                           out (xo + sx s) (yo + sy s) (sw s) (sh s))
           (fun s => tile_of inp xi yi (f s))); auto.
  - rewrite map_id. exact T.
  - assert (Z.of_nat (length (rel_strips wo ho cnt ax)) = cnt) by (apply rel_strips_length; destruct ax; lia). lia.
  - intros s Hin. destruct (T) as (T1 & _). specialize (T1 s Hin). unfold place; cbn [sx sy sw sh].
    destruct (TI) as (TI1 & _). pose proof (TI1 (f s)) as TIs. rewrite Hf in TIs. specialize (TIs (in_map f _ _ Hin)).
    assert (R1' : roi_in inp (xi + sx (f s)) (yi + sy (f s)) (sw (f s)) (sh (f s))) by (eapply sub_roi; eauto; lia).
    assert (Ro' : roi_in out (xo + sx s) (yo + sy s) (sw s) (sh s)) by (eapply sub_roi; eauto; lia).
    assert (D' : disjoint out (xo + sx s) (yo + sy s) (sw s) (sh s) inp (xi + sx (f s)) (yi + sy (f s)) (sw (f s)) (sh (f s)))
      by (eapply sub_disjoint; eauto; lia).
    assert ((sw s - 1) * sw (f s) < W32) by nia. assert ((sh s - 1) * sh (f s) < W32) by nia.
    split; [apply (Resize_strip m); auto|].
    eapply writes_ext; [apply Resize_writes; auto|]. intros i j c (Hi & Hj & _). cbv beta.
    destruct (Hs s Hin) as [S1 S2]. rewrite S1, S2 by assumption. f_equal; ring.
  - intros i j s t p Hij Hi Hj Hp Hq.
    destruct (tile_roi _ _ _ wo ho _ _ p T (nth_error_In _ _ Hi) Hp) as (i1 & j1 & c1 & I1 & E1).
    assert (Hft : In (f t) (rel_strips wi hi cnt ax)) by (rewrite Hf; apply in_map; eapply nth_error_In; eauto).
    destruct (tile_roi _ _ _ wi hi _ (f t) p TI Hft Hq) as (i2 & j2 & c2 & I2 & E2).
    apply (D i1 j1 c1 i2 j2 c2); congruence.
Qed.
