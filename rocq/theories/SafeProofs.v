(** Memory safety of the scalar functions for every aliasing of their images, rejection of
    invalid arguments, value-returning forms. *)
From Coq Require Import ZArith List Bool Lia.
From Verif Require Import Base Image Spec BaseProofs ImgFun ImgLemmas ImgProofs ConvProofs ReduceProofs.
Import ListNotations.
Open Scope Z_scope.

Ltac Zify.zify_post_hook ::= Z.div_mod_to_equations.

Lemma writes_ext {E} (r : res E mem) m out x y w h v1 v2 :
  writes r m out x y w h v1 ->
  (forall i j c, inside w h (icc out) i j c -> v1 i j c = v2 i j c) ->
  writes r m out x y w h v2.
Proof.
  intros (m' & He & Hv & Hf) Hx. exists m'. split; [exact He|]. split; [|exact Hf].
  intros i j c Hi. rewrite Hv by assumption. apply Hx. assumption.
Qed.

Lemma disjoint_blocks a xa ya wa ha b xb yb wb hb :
  fst (ibase a) <> fst (ibase b) -> disjoint a xa ya wa ha b xb yb wb hb.
Proof. intros Hn i j c i' j' c' _ _ He. apply Hn. unfold px in He. congruence. Qed.

Lemma disjoint_sym a xa ya wa ha b xb yb wb hb :
  disjoint a xa ya wa ha b xb yb wb hb -> disjoint b xb yb wb hb a xa ya wa ha.
Proof. intros H i j c i' j' c' Hi Hj He. apply (H i' j' c' i j c); auto. Qed.

Lemma no_hazard_same m im x y w h : wf m im -> roi_in im x y w h -> no_hazard im x y im x y w h.
Proof. intros W R i j c i' j' c' H1 H2 He. eapply px_inj; eauto. Qed.

Lemma writes_mem {E} (r : res E mem) m out x y w h v :
  writes r m out x y w h v -> exists m', r = Ok m' /\ same_len m m' /\
    (forall i j c, inside w h (icc out) i j c -> pixel m' out (x + i) (y + j) c = v i j c) /\
    (forall p, (forall i j c, inside w h (icc out) i j c -> p <> px out (x + i) (y + j) c) ->
               get m' p = get m p).
Proof. intros (m' & He & Hv & Hl & Hf). exists m'. auto. Qed.

(** Whether an address belongs to a region is decidable. *)
Lemma roi_dec m im x y w h p : wf m im -> roi_in im x y w h ->
  (exists i j c, inside w h (icc im) i j c /\ p = px im (x + i) (y + j) c) \/
  (forall i j c, inside w h (icc im) i j c -> p <> px im (x + i) (y + j) c).
Proof.
  intros W R. pose proof (wf_cc_pos _ _ W) as Hcc. pose proof (wf_rs _ _ W) as Hrs. pose proof (wf_w _ _ W) as Hw.
  destruct R as [Hx Hy Hw0 Hh0 Hxw Hyh]. assert (Hrs0 : 0 < irs im) by nia.
  set (d := snd p - snd (ibase im)).
  pose proof (Z.div_mod d (irs im) ltac:(lia)) as Ed. pose proof (Z.mod_pos_bound d (irs im) Hrs0) as Hm.
  set (row := d / irs im) in *. set (col := d mod irs im) in *.
  pose proof (Z.div_mod col (icc im) ltac:(lia)) as Ec. pose proof (Z.mod_pos_bound col (icc im) ltac:(lia)) as Hc.
  set (k := col / icc im) in *. set (c := col mod icc im) in *.
  destruct (Z.eq_dec (fst p) (fst (ibase im))) as [Hb|Hb].
  2:{ right. intros i j c' _ ->. apply Hb. reflexivity. }
  destruct (Z_le_dec y row); [destruct (Z_lt_dec row (y + h)); [destruct (Z_le_dec x k); [destruct (Z_lt_dec k (x + w))|]|]|].
  1:{ left. exists (k - x), (row - y), c. split; [unfold inside; lia|].
      unfold px. destruct p as [b o]. cbn [fst snd] in *. subst b. f_equal.
      replace (x + (k - x)) with k by ring. replace (y + (row - y)) with row by ring. unfold d in Ed. nia. }
  all: right; intros i j c' (Hi & Hj & Hc') E; assert (Eo : snd p = snd (px im (x + i) (y + j) c')) by (rewrite E; reflexivity);
    cbn [px snd] in Eo;
    assert (Hcol : 0 <= (x + i) * icc im + c' < irs im) by nia;
    assert (E1 : row = y + j) by (symmetry; apply (Z.div_unique d (irs im) (y + j) ((x + i) * icc im + c')); [lia|unfold d; nia]);
    assert (E2 : col = (x + i) * icc im + c') by (symmetry; apply (Z.mod_unique d (irs im) (y + j) ((x + i) * icc im + c')); [lia|unfold d; nia]);
    assert (E3 : k = x + i) by (symmetry; apply (Z.div_unique col (icc im) (x + i) c'); [lia|nia]);
    lia.
Qed.
(** The specification [writes] determines the resulting memory. *)
Lemma writes_unique m m1 m2 out x y w h v : wf m out -> roi_in out x y w h ->
  writes (Ok m1 : res mem mem) m out x y w h v -> writes (Ok m2 : res mem mem) m out x y w h v ->
  (forall p, get m1 p = get m2 p) /\ (forall b, len m1 b = len m2 b).
Proof.
  intros W R (n1 & E1 & V1 & L1 & F1) (n2 & E2 & V2 & L2 & F2).
  injection E1 as <-. injection E2 as <-. split; [|intros b; rewrite L1, L2; reflexivity].
  intros p. destruct (roi_dec m out x y w h p W R) as [(i & j & c & Hi & ->)|Hn].
  - transitivity (v i j c); [apply V1; exact Hi|symmetry; apply V2; exact Hi].
  - rewrite F1, F2 by assumption. reflexivity.
Qed.

(** A region disjoint from the one written keeps its pixels. *)
Lemma writes_keep m m' out x y w h im x' y' w' h' :
  only_roi_changed m m' out x y w h -> disjoint out x y w h im x' y' w' h' ->
  forall i j c, inside w' h' (icc im) i j c ->
    pixel m' im (x' + i) (y' + j) c = pixel m im (x' + i) (y' + j) c.
Proof.
  intros [_ Hf] Hd i j c Hi. apply Hf. intros i' j' c' Hi' He.
  apply (Hd i' j' c' i j c); auto.
Qed.

Lemma only_len m m' out x y w h : only_roi_changed m m' out x y w h -> same_len m m'.
Proof. intros [H _]. exact H. Qed.

(** ** Safety of nested loops under arbitrary aliasing *)

Definition fine {A} (m : mem) (len_of : A -> mem) (r : res mem A) : Prop :=
  exists a, r = Ok a /\ same_len m (len_of a).
Definition safe (m : mem) (r : res mem mem) : Prop := exists m', r = Ok m' /\ same_len m m'.

Lemma iterM2_safe m (g : Z -> Z -> mem -> res mem mem) h n :
  (forall j i m1, 0 <= j < h -> 0 <= i < n -> same_len m m1 -> safe m (g j i m1)) ->
  safe m (iterM (Z.to_nat h) 0 (fun j => iterM (Z.to_nat n) 0 (fun i => g j i)) m).
Proof.
  intros Hs.
  destruct (@iterM_inv mem mem (fun _ t => same_len m t)
              (fun j => iterM (Z.to_nat n) 0 (fun i => g j i)) (Z.to_nat h) 0 m (same_len_refl m)) as (t' & He & Hp).
  - intros j u Hj Hu.
    destruct (@iterM_inv mem mem (fun _ t => same_len m t) (fun i => g j i) (Z.to_nat n) 0 u Hu) as (u' & Hue & Hup).
    + intros i v Hi Hv. destruct (Hs j i v) as (v' & Hv' & Hl); [lia|lia|assumption|]. eauto.
    + eauto.
  - exists t'. auto.
Qed.

Lemma load_safe {E} m m1 p : same_len m m1 -> inb m p = true -> @load E m1 p = Ok (get m1 p).
Proof. intros H Hi. apply load_ok. rewrite (same_len_inb m) by assumption. assumption. Qed.
Lemma store_safe m m1 p v : same_len m m1 -> inb m p = true -> safe m (store m1 p v).
Proof.
  intros H Hi. exists (upd m1 p v). split.
  - apply store_ok. rewrite (same_len_inb m) by assumption. assumption.
  - intros b. rewrite len_upd. apply H.
Qed.
Lemma safe_bind m r (k : mem -> res mem mem) :
  safe m r -> (forall m1, same_len m m1 -> safe m (k m1)) -> safe m (bind r k).
Proof. intros (m1 & -> & Hl) Hk. cbn [bind]. apply Hk. assumption. Qed.
Lemma safe_ok m m1 : same_len m m1 -> safe m (Ok m1).
Proof. intros H. exists m1. auto. Qed.
Lemma moves_safe m : forall l m1, same_len m m1 ->
  (forall d s, In (d, s) l -> inb m d = true /\ inb m s = true) -> safe m (moves m1 l).
Proof.
  induction l as [|[d s] l IH]; intros m1 Hl Hi; cbn [moves].
  - apply safe_ok; auto.
  - destruct (Hi d s) as [H1 H2]; [simpl; auto|]. rewrite (load_safe m) by assumption. cbn [bind].
    apply safe_bind; [apply store_safe; auto|]. intros m2 H'. apply IH; auto. intros; apply Hi; simpl; auto.
Qed.
Lemma stores_safe m : forall ps m1 vs, same_len m m1 -> (forall p, In p ps -> inb m p = true) ->
  safe m (stores m1 ps vs).
Proof.
  induction ps as [|p ps IH]; intros m1 vs Hl Hi; cbn [stores]; [apply safe_ok; auto|].
  destruct vs as [|v vs]; [apply safe_ok; auto|].
  apply safe_bind; [apply store_safe; simpl in *; auto|]. intros m2 H'. apply IH; simpl in *; auto.
Qed.
Lemma memset_safe m m1 d v n : same_len m m1 -> (forall i, 0 <= i < n -> inb m (padd d i) = true) ->
  safe m (memset m1 d v n).
Proof.
  intros Hl Hi. apply stores_safe; auto. intros p Hp. apply span_In in Hp as (i & Hr & ->).
  apply Hi. lia.
Qed.

Lemma pixelwise2_safe f m in1 x1 y1 in2 x2 y2 out xo yo w h :
  wf m in1 -> wf m in2 -> wf m out -> icc in1 = icc out -> icc in2 = icc out ->
  roi_in in1 x1 y1 w h -> roi_in in2 x2 y2 w h -> roi_in out xo yo w h ->
  safe m (pixelwise2 opt3 f m in1 x1 y1 in2 x2 y2 out xo yo w h).
Proof.
  intros W1 W2 Wo C1 C2 R1 R2 Ro.
  pose proof (wf_cc_pos _ _ Wo) as Hcc. assert (Hw0 : 0 < w) by apply Ro. assert (Hh0 : 0 < h) by apply Ro.
  unfold pixelwise2, valid_roi3, valid_roi2. rewrite !(valid_roi_ok m) by assumption.
  unfold common_cc3. rewrite C1, C2, Z.eqb_refl. cbn [andb].
  rewrite (row_ptr_origin m in1 x1 y1 w h) by (auto; lia).
  rewrite (row_ptr_origin m in2 x2 y2 w h) by (auto; lia).
  rewrite (row_ptr_origin m out xo yo w h) by (auto; lia).
  rewrite (u32_width m out xo w) by (auto; first [apply Ro|lia]).
  destruct (OptimiseRoi (w * icc out) h (opt3 in1 in2 out)) as [w' h'] eqn:Ho.
  rewrite <- (Z.mul_1_r (w * icc out)) in Ho.
  pose proof (wf_rs_pos _ _ Wo). pose proof (roi_rows_small m out xo yo w h Wo Ro).
  match goal with |- safe m ?r =>
    assert (Er : r = iterM (Z.to_nat h) 0 (fun j => iterM (Z.to_nat (w * icc out)) 0 (fun i m1 =>
      bind (load m1 (padd (origin in1 x1 y1 (icc out)) (j * irs in1 + i))) (fun a =>
      bind (load m1 (padd (origin in2 x2 y2 (icc out)) (j * irs in2 + i))) (fun b =>
      store m1 (padd (origin out xo yo (icc out)) (j * irs out + i)) (f a b))))) m) end.
  { etransitivity; [apply (walk2_opt (w * icc out) 1 h (opt3 in1 in2 out) w' h' (origin out xo yo (icc out))
      [origin in1 x1 y1 (icc out); origin in2 x2 y2 (icc out)] (irs out) [irs in1; irs in2]);
      try reflexivity; try nia; auto|].
    - intros r [<-|[<-|[<-|[]]]]; [exists out|exists in1|exists in2]; unfold opt3; simpl; auto.
    - apply iterM_ext. intros j s Hj. apply iterM_ext. intros i u Hi.
      unfold c0, c1, c2, cells. cbn [length repeat zip3 map nth fst snd]. rewrite !Z.mul_1_r. reflexivity. }
  rewrite Er. apply iterM2_safe. intros j i m1 Hj Hi Hl.
  rewrite (load_safe m) by (auto; rewrite <- C1; apply (cell_inb m in1 x1 y1 w h); auto; lia). cbn [bind].
  rewrite (load_safe m) by (auto; rewrite <- C2; apply (cell_inb m in2 x2 y2 w h); auto; lia). cbn [bind].
  apply store_safe; auto. apply (cell_inb m out xo yo w h); auto.
Qed.

Lemma walk2_opt_safe n S h ims w' h' p ps r rs (body : list ptr -> mem -> res mem mem) m :
  0 < n -> 0 < S -> 0 < h -> 0 < r ->
  OptimiseRoi (n * S) h ims = (w', h') ->
  (forall x, In x (r :: rs) -> exists im, In im ims /\ x = irs im) ->
  length ps = length rs -> h * r < W32 ->
  (forall j i m1, 0 <= j < h -> 0 <= i < n -> same_len m m1 ->
     safe m (body (cells (zip3 (p :: ps) (r :: rs) (S :: repeat S (length ps))) j i) m1)) ->
  safe m (walk h' (p :: ps) (r :: rs) (padd p (u32 (h' * r)))
    (fun cur t => walk w' cur (S :: repeat S (length ps)) (padd (nth 0 cur nullp) w') body t) m).
Proof.
  intros Hn HS Hh Hr Ho Hi Hl Hs Hb.
  rewrite (walk2_opt n S h ims) by assumption. apply iterM2_safe. exact Hb.
Qed.

Lemma walk2_plain_safe n h w' p ps r rs c cs (body : list ptr -> mem -> res mem mem) m :
  0 <= n -> 0 < c -> 0 <= h -> 0 < r -> w' = n * c ->
  length ps = length rs -> length ps = length cs -> h * r < W32 ->
  (forall j i m1, 0 <= j < h -> 0 <= i < n -> same_len m m1 ->
     safe m (body (cells (zip3 (p :: ps) (r :: rs) (c :: cs)) j i) m1)) ->
  safe m (walk h (p :: ps) (r :: rs) (padd p (u32 (h * r)))
    (fun cur t => walk w' cur (c :: cs) (padd (nth 0 cur nullp) w') body t) m).
Proof.
  intros. rewrite (walk2_plain n) by assumption. apply iterM2_safe. assumption.
Qed.

Ltac roi_facts m :=
  repeat match goal with
  | W : wf m ?im, R : roi_in ?im ?x ?y ?w ?h |- _ =>
      lazymatch goal with
      | _ : h * irs im < W32 |- _ => fail
      | _ => pose proof (wf_cc_pos _ _ W); pose proof (wf_rs_pos _ _ W);
             pose proof (roi_rows_small m im x y w h W R);
             assert (0 < w /\ 0 < h) by (destruct R; lia)
      end
  end.
Ltac simpl_cells := unfold c0, c1, c2, c3, cells; cbn [length repeat zip3 map nth fst snd].

(** [px] facts used to discharge in-bounds goals *)
Lemma cell_inb' m im x y w h i j d :
  wf m im -> roi_in im x y w h -> 0 <= j < h -> 0 <= d ->
  0 <= i < w * icc im -> inb m (padd (origin im x y (icc im)) (j * irs im + i)) = true.
Proof. intros. eapply cell_inb; eauto. Qed.

Lemma pixelwise1_safe pre f m inp xi yi out xo yo w h :
  wf m inp -> wf m out -> icc inp = icc out -> pre inp out = true ->
  roi_in inp xi yi w h -> roi_in out xo yo w h ->
  safe m (pixelwise1 pre (fun a => Ok (f a)) m inp xi yi out xo yo w h).
Proof.
  intros W1 Wo C P R1 Ro. roi_facts m.
  unfold pixelwise1, valid_roi2. rewrite !(valid_roi_ok m) by assumption. rewrite P, C. cbn [andb].
  rewrite (row_ptr_origin m inp xi yi w h) by (auto; lia).
  rewrite (row_ptr_origin m out xo yo w h) by (auto; lia).
  rewrite (u32_width m out xo w) by (auto; first [apply Ro|lia]).
  destruct (OptimiseRoi (w * icc out) h [inp; out]) as [w' h'] eqn:Ho.
  rewrite <- (Z.mul_1_r (w * icc out)) in Ho.
  apply (walk2_opt_safe (w * icc out) 1 h [inp; out] w' h' _ [origin inp xi yi (icc out)] _ [irs inp]);
    try reflexivity; try nia; auto.
  - intros r [<-|[<-|[]]]; [exists out|exists inp]; simpl; auto.
  - intros j i m1 Hj Hi Hl. simpl_cells. rewrite !Z.mul_1_r.
    rewrite (load_safe m) by (auto; rewrite <- C; apply (cell_inb m inp xi yi w h); auto; lia). cbn [bind].
    apply store_safe; auto. apply (cell_inb m out xo yo w h); auto.
Qed.

Lemma Convert_safe m inp xi yi out xo yo w h :
  wf m inp -> wf m out -> icc inp = icc out ->
  roi_in inp xi yi w h -> roi_in out xo yo w h ->
  safe m (ConvertTo16Bit m inp xi yi out xo yo w h) /\ safe m (ConvertTo8Bit m inp xi yi out xo yo w h).
Proof.
  intros W1 Wo C R1 Ro. roi_facts m.
  assert (Hin : forall j i, 0 <= j < h -> 0 <= i < w * icc out ->
            inb m (padd (origin inp xi yi 1) (j * irs inp + i)) = true).
  { intros j i Hj Hi. apply inb_iff. unfold origin, padd. cbn [fst snd].
    pose proof (wf_rs _ _ W1). pose proof (wf_lo _ _ W1). pose proof (wf_hi _ _ W1).
    destruct R1. assert ((yi + j) * irs inp + irs inp <= ih inp * irs inp) by nia.
    assert (xi + i < irs inp) by nia. nia. }
  unfold ConvertTo16Bit, ConvertTo8Bit. rewrite !(valid_roi_ok m) by assumption.
  rewrite C, Z.eqb_refl.
  rewrite (row_ptr_origin m inp xi yi w h) by (auto; lia).
  rewrite (row_ptr_origin m out xo yo w h) by (auto; lia).
  rewrite (u32_width m out xo w) by (auto; first [apply Ro|lia]).
  split;
    (apply (walk2_plain_safe (w * icc out) h _ _ [origin inp xi yi 1] _ [irs inp] 1 [1]);
     try reflexivity; try nia; auto;
     intros j i m1 Hj Hi Hl; simpl_cells; rewrite !Z.mul_1_r;
     rewrite (load_safe m) by (auto; lia); cbn [bind];
     apply store_safe; auto; apply (cell_inb m out xo yo w h); auto).
Qed.

(** In-bounds goals for a pixel address in [cells] form. *)
Lemma cell_px m im x y w h i j c :
  wf m im -> roi_in im x y w h -> 0 <= i < w -> 0 <= j < h -> 0 <= c < icc im ->
  inb m (padd (padd (origin im x y (icc im)) (j * irs im + i * icc im)) c) = true.
Proof.
  intros. rewrite padd_padd, <- Z.add_assoc. eapply cell_inb; eauto. apply join_index; auto.
Qed.
Lemma cell_px0 m im x y w h i j :
  wf m im -> roi_in im x y w h -> 0 <= i < w -> 0 <= j < h ->
  inb m (padd (origin im x y (icc im)) (j * irs im + i * icc im)) = true.
Proof.
  intros W R Hi Hj. rewrite <- (padd_0 (padd _ _)). pose proof (wf_cc_pos _ _ W).
  eapply cell_px; eauto. lia.
Qed.
Lemma cell_px_pre m im x y w h i j c :
  wf m im -> roi_in im x y w h -> 0 <= i < w -> 0 <= j < h -> 0 <= c < icc im ->
  inb m (padd (padd (origin im x y (icc im)) c) (j * irs im + i * icc im)) = true.
Proof.
  intros. rewrite padd_padd, Z.add_comm, <- padd_padd. eapply cell_px; eauto.
Qed.

Ltac set_cc im C := let E := fresh "E" in pose proof C as E; rewrite <- E in *; clear E.

Lemma ConvertToGrayScale_safe m inp xi yi out xo yo w h :
  wf m inp -> wf m out -> icc inp = 3 \/ icc inp = 4 -> icc out = 1 ->
  roi_in inp xi yi w h -> roi_in out xo yo w h ->
  safe m (ConvertToGrayScale m inp xi yi out xo yo w h).
Proof.
  intros W1 Wo C Co R1 Ro. roi_facts m.
  assert (Hin : forall j i c, 0 <= j < h -> 0 <= i < w -> 0 <= c < 3 ->
            inb m (padd (padd (origin inp xi yi 3) (j * irs inp + i * 3)) c) = true).
  { intros j i c Hj Hi Hc. apply inb_iff. unfold origin, padd. cbn [fst snd].
    pose proof (wf_rs _ _ W1). pose proof (wf_lo _ _ W1). pose proof (wf_hi _ _ W1).
    destruct R1. assert ((yi + j) * irs inp + irs inp <= ih inp * irs inp) by nia.
    assert (xi * 3 + i * 3 + c < irs inp) by nia. nia. }
  assert (Hin0 : forall j i, 0 <= j < h -> 0 <= i < w ->
            inb m (padd (origin inp xi yi 3) (j * irs inp + i * 3)) = true).
  { intros j i Hj Hi. rewrite <- (padd_0 (padd _ _)). apply Hin; lia. }
  unfold ConvertToGrayScale, valid_roi2. rewrite !(valid_roi_ok m) by assumption.
  rewrite gray_true by assumption. cbn [andb]. unfold GRAY_SCALE, RGB.
  destruct (Z.eqb_spec (icc inp) 1); [lia|].
  rewrite (row_ptr_origin m inp xi yi w h) by (auto; lia).
  rewrite (row_ptr_origin m out xo yo w h) by (auto; lia).
  apply (walk2_plain_safe w h _ _ [origin inp xi yi 3] _ [irs inp] 1 [3]);
    try reflexivity; try lia; auto.
  intros j i m1 Hj Hi Hl. simpl_cells.
  rewrite (load_safe m) by (auto; lia). cbn [bind].
  rewrite (load_safe m) by (auto; apply Hin; lia). cbn [bind].
  rewrite (load_safe m) by (auto; apply Hin; lia). cbn [bind].
  apply store_safe; auto. rewrite <- Co. apply (cell_px0 m out xo yo w h); auto.
Qed.

Lemma ConvertToRgb_safe m inp xi yi out xo yo w h :
  wf m inp -> wf m out -> icc inp = 1 \/ icc inp = 4 -> icc out = 3 ->
  roi_in inp xi yi w h -> roi_in out xo yo w h ->
  safe m (ConvertToRgb m inp xi yi out xo yo w h).
Proof.
  intros W1 Wo C Co R1 Ro. roi_facts m.
  assert (Hin0 : forall j i, 0 <= j < h -> 0 <= i < w ->
            inb m (padd (origin inp xi yi 1) (j * irs inp + i * 1)) = true).
  { intros j i Hj Hi. apply inb_iff. unfold origin, padd. cbn [fst snd].
    pose proof (wf_rs _ _ W1). pose proof (wf_lo _ _ W1). pose proof (wf_hi _ _ W1).
    destruct R1. assert ((yi + j) * irs inp + irs inp <= ih inp * irs inp) by nia.
    assert (xi + i < irs inp) by nia. nia. }
  unfold ConvertToRgb, valid_roi2. rewrite !(valid_roi_ok m) by assumption.
  rewrite rgb_true by assumption. cbn [andb]. unfold RGB.
  destruct (Z.eqb_spec (icc inp) 3); [lia|].
  rewrite (row_ptr_origin m inp xi yi w h) by (auto; lia).
  rewrite (row_ptr_origin m out xo yo w h) by (auto; lia).
  rewrite <- Co. rewrite (u32_width m out xo w) by (auto; first [apply Ro|lia]).
  apply (walk2_plain_safe w h _ _ [origin inp xi yi 1] _ [irs inp] (icc out) [1]);
    try reflexivity; try lia; auto.
  intros j i m1 Hj Hi Hl. simpl_cells.
  rewrite (load_safe m) by (auto; lia). cbn [bind].
  apply memset_safe; auto. intros c Hc. apply (cell_px m out xo yo w h); auto.
Qed.

Lemma ExtractChannel_safe m inp xi yi out xo yo w h ch :
  wf m inp -> wf m out -> icc out = 1 -> 0 <= ch < icc inp ->
  roi_in inp xi yi w h -> roi_in out xo yo w h ->
  safe m (ExtractChannel m inp xi yi out xo yo w h ch).
Proof.
  intros W1 Wo Co Hch R1 Ro. roi_facts m.
  unfold ExtractChannel, valid_roi2. rewrite !(valid_roi_ok m) by assumption.
  rewrite gray_true by assumption. cbn [andb]. destruct (Z.ltb_spec ch (icc inp)); [|lia].
  rewrite (row_ptr_origin m inp xi yi w h) by (auto; lia).
  rewrite (row_ptr_origin m out xo yo w h) by (auto; lia).
  apply (walk2_plain_safe w h _ _ [padd (origin inp xi yi (icc inp)) ch] _ [irs inp] 1 [icc inp]);
    try reflexivity; try lia; auto.
  intros j i m1 Hj Hi Hl. simpl_cells.
  rewrite (load_safe m) by (auto; apply (cell_px_pre m inp xi yi w h); auto). cbn [bind].
  apply store_safe; auto. rewrite <- Co. apply (cell_px0 m out xo yo w h); auto.
Qed.

Lemma Merge_safe m in1 x1 y1 in2 x2 y2 in3 x3 y3 out xo yo w h :
  wf m in1 -> wf m in2 -> wf m in3 -> wf m out ->
  icc in1 = 1 -> icc in2 = 1 -> icc in3 = 1 -> icc out = 3 ->
  roi_in in1 x1 y1 w h -> roi_in in2 x2 y2 w h -> roi_in in3 x3 y3 w h -> roi_in out xo yo w h ->
  safe m (Merge m in1 x1 y1 in2 x2 y2 in3 x3 y3 out xo yo w h).
Proof.
  intros W1 W2 W3 Wo C1 C2 C3 Co R1 R2 R3 Ro. roi_facts m.
  unfold Merge, valid_roi3, valid_roi2. rewrite !(valid_roi_ok m) by assumption.
  rewrite !gray_true, rgb_true by assumption. cbn [andb]. unfold RGB.
  rewrite (row_ptr_origin m in1 x1 y1 w h) by (auto; lia).
  rewrite (row_ptr_origin m in2 x2 y2 w h) by (auto; lia).
  rewrite (row_ptr_origin m in3 x3 y3 w h) by (auto; lia).
  rewrite (row_ptr_origin m out xo yo w h) by (auto; lia).
  rewrite (u32_small (w * 3)) by (destruct Ro; pose proof (wf_bounds _ _ Wo); nia).
  apply (walk2_plain_safe w h _ _ [origin in1 x1 y1 1; origin in2 x2 y2 1; origin in3 x3 y3 1]
           _ [irs in1; irs in2; irs in3] 3 [1; 1; 1]); try reflexivity; try lia; auto.
  intros j i m1 Hj Hi Hl. simpl_cells.
  pose proof (cell_px0 m in1 x1 y1 w h i j W1 R1 Hi Hj) as A1. rewrite C1 in A1.
  pose proof (cell_px0 m in2 x2 y2 w h i j W2 R2 Hi Hj) as A2. rewrite C2 in A2.
  pose proof (cell_px0 m in3 x3 y3 w h i j W3 R3 Hi Hj) as A3. rewrite C3 in A3.
  pose proof (cell_px0 m out xo yo w h i j Wo Ro Hi Hj) as B0. rewrite Co in B0.
  pose proof (cell_px m out xo yo w h i j 1 Wo Ro Hi Hj ltac:(lia)) as B1. rewrite Co in B1.
  pose proof (cell_px m out xo yo w h i j 2 Wo Ro Hi Hj ltac:(lia)) as B2. rewrite Co in B2.
  apply moves_safe; auto. intros d s [E|[E|[E|[]]]]; injection E as <- <-; auto.
Qed.

Lemma Split_safe m inp xi yi o1 x1 y1 o2 x2 y2 o3 x3 y3 w h :
  wf m o1 -> wf m o2 -> wf m o3 -> wf m inp ->
  icc o1 = 1 -> icc o2 = 1 -> icc o3 = 1 -> icc inp = 3 ->
  roi_in o1 x1 y1 w h -> roi_in o2 x2 y2 w h -> roi_in o3 x3 y3 w h -> roi_in inp xi yi w h ->
  safe m (Split m inp xi yi o1 x1 y1 o2 x2 y2 o3 x3 y3 w h).
Proof.
  intros W1 W2 W3 Wo C1 C2 C3 Co R1 R2 R3 Ro. roi_facts m.
  unfold Split, valid_roi3, valid_roi2. rewrite !(valid_roi_ok m) by assumption.
  rewrite !gray_true, rgb_true by assumption. cbn [andb]. unfold RGB.
  rewrite (row_ptr_origin m o1 x1 y1 w h) by (auto; lia).
  rewrite (row_ptr_origin m o2 x2 y2 w h) by (auto; lia).
  rewrite (row_ptr_origin m o3 x3 y3 w h) by (auto; lia).
  rewrite (row_ptr_origin m inp xi yi w h) by (auto; lia).
  rewrite (u32_small (w * 3)) by (destruct Ro; pose proof (wf_bounds _ _ Wo); nia).
  apply (walk2_plain_safe w h _ _ [origin o1 x1 y1 1; origin o2 x2 y2 1; origin o3 x3 y3 1]
           _ [irs o1; irs o2; irs o3] 3 [1; 1; 1]); try reflexivity; try lia; auto.
  intros j i m1 Hj Hi Hl. simpl_cells.
  pose proof (cell_px0 m o1 x1 y1 w h i j W1 R1 Hi Hj) as A1. rewrite C1 in A1.
  pose proof (cell_px0 m o2 x2 y2 w h i j W2 R2 Hi Hj) as A2. rewrite C2 in A2.
  pose proof (cell_px0 m o3 x3 y3 w h i j W3 R3 Hi Hj) as A3. rewrite C3 in A3.
  pose proof (cell_px0 m inp xi yi w h i j Wo Ro Hi Hj) as B0. rewrite Co in B0.
  pose proof (cell_px m inp xi yi w h i j 1 Wo Ro Hi Hj ltac:(lia)) as B1. rewrite Co in B1.
  pose proof (cell_px m inp xi yi w h i j 2 Wo Ro Hi Hj ltac:(lia)) as B2. rewrite Co in B2.
  apply moves_safe; auto. intros d s [E|[E|[E|[]]]]; injection E as <- <-; auto.
Qed.

Lemma ReplaceChannel_safe m ch xc yc rgb xr yr w h id :
  wf m ch -> wf m rgb -> icc ch = 1 -> icc rgb = 3 -> 0 <= id < 3 ->
  roi_in ch xc yc w h -> roi_in rgb xr yr w h ->
  safe m (ReplaceChannel m ch xc yc rgb xr yr w h id).
Proof.
  intros W1 Wo C Co Hid R1 Ro. roi_facts m.
  unfold ReplaceChannel, valid_roi2. rewrite !(valid_roi_ok m) by assumption.
  rewrite gray_true, rgb_true by assumption. cbn [andb]. unfold RGB.
  destruct (Z.ltb_spec id 3); [|lia].
  rewrite (row_ptr_origin m ch xc yc w h) by (auto; lia).
  rewrite (row_ptr_origin m rgb xr yr w h) by (auto; lia).
  rewrite (u32_small (w * 3)) by (destruct Ro; pose proof (wf_bounds _ _ Wo); nia).
  apply (walk2_plain_safe w h _ _ [origin ch xc yc 1] _ [irs ch] 3 [1]); try reflexivity; try lia; auto.
  intros j i m1 Hj Hi Hl. simpl_cells.
  pose proof (cell_px0 m ch xc yc w h i j W1 R1 Hi Hj) as A1. rewrite C in A1.
  pose proof (cell_px_pre m rgb xr yr w h i j id Wo Ro Hi Hj ltac:(lia)) as B1. rewrite Co in B1.
  rewrite (load_safe m) by auto. cbn [bind]. apply store_safe; auto.
Qed.

Lemma RgbToBgr_safe m inp xi yi out xo yo w h :
  wf m inp -> wf m out -> icc inp = 3 -> icc out = 3 ->
  roi_in inp xi yi w h -> roi_in out xo yo w h ->
  safe m (RgbToBgr m inp xi yi out xo yo w h).
Proof.
  intros W1 Wo C Co R1 Ro. roi_facts m.
  unfold RgbToBgr, valid_roi2. rewrite !(valid_roi_ok m) by assumption.
  rewrite !rgb_true by assumption. cbn [andb]. unfold RGB.
  rewrite (row_ptr_origin m inp xi yi w h) by (auto; lia).
  rewrite (row_ptr_origin m out xo yo w h) by (auto; lia).
  rewrite (u32_small (w * 3)) by (destruct Ro; pose proof (wf_bounds _ _ Wo); nia).
  destruct (OptimiseRoi (w * 3) h [inp; out]) as [w' h'] eqn:Ho.
  apply (walk2_opt_safe w 3 h [inp; out] w' h' _ [origin inp xi yi 3] _ [irs inp]);
    try reflexivity; try lia; auto.
  - intros r [<-|[<-|[]]]; [exists out|exists inp]; simpl; auto.
  - intros j i m1 Hj Hi Hl. simpl_cells.
    pose proof (cell_px0 m inp xi yi w h i j W1 R1 Hi Hj) as A0. rewrite C in A0.
    pose proof (cell_px m inp xi yi w h i j 1 W1 R1 Hi Hj ltac:(lia)) as A1. rewrite C in A1.
    pose proof (cell_px m inp xi yi w h i j 2 W1 R1 Hi Hj ltac:(lia)) as A2. rewrite C in A2.
    pose proof (cell_px0 m out xo yo w h i j Wo Ro Hi Hj) as B0. rewrite Co in B0.
    pose proof (cell_px m out xo yo w h i j 1 Wo Ro Hi Hj ltac:(lia)) as B1. rewrite Co in B1.
    pose proof (cell_px m out xo yo w h i j 2 Wo Ro Hi Hj ltac:(lia)) as B2. rewrite Co in B2.
    apply moves_safe; auto. intros d s [E|[E|[E|[]]]]; injection E as <- <-; auto.
Qed.

Lemma RgbToRgba_safe m inp xi yi out xo yo w h :
  wf m inp -> wf m out -> icc inp = 3 -> icc out = 4 ->
  roi_in inp xi yi w h -> roi_in out xo yo w h ->
  safe m (RgbToRgba m inp xi yi out xo yo w h).
Proof.
  intros W1 Wo C Co R1 Ro. roi_facts m.
  unfold RgbToRgba, valid_roi2. rewrite !(valid_roi_ok m) by assumption.
  rewrite rgb_true, rgba_true by assumption. cbn [andb]. unfold RGB, RGBA.
  rewrite (row_ptr_origin m inp xi yi w h) by (auto; lia).
  rewrite (row_ptr_origin m out xo yo w h) by (auto; lia).
  rewrite (u32_small (w * 4)) by (destruct Ro; pose proof (wf_bounds _ _ Wo); nia).
  apply (walk2_plain_safe w h _ _ [origin inp xi yi 3] _ [irs inp] 4 [3]); try reflexivity; try lia; auto.
  intros j i m1 Hj Hi Hl. simpl_cells.
  pose proof (cell_px0 m inp xi yi w h i j W1 R1 Hi Hj) as A0. rewrite C in A0.
  pose proof (cell_px m inp xi yi w h i j 1 W1 R1 Hi Hj ltac:(lia)) as A1. rewrite C in A1.
  pose proof (cell_px m inp xi yi w h i j 2 W1 R1 Hi Hj ltac:(lia)) as A2. rewrite C in A2.
  pose proof (cell_px0 m out xo yo w h i j Wo Ro Hi Hj) as B0. rewrite Co in B0.
  pose proof (cell_px m out xo yo w h i j 1 Wo Ro Hi Hj ltac:(lia)) as B1. rewrite Co in B1.
  pose proof (cell_px m out xo yo w h i j 2 Wo Ro Hi Hj ltac:(lia)) as B2. rewrite Co in B2.
  pose proof (cell_px m out xo yo w h i j 3 Wo Ro Hi Hj ltac:(lia)) as B3. rewrite Co in B3.
  apply safe_bind.
  - apply moves_safe; auto. intros d s [E|[E|[E|[]]]]; injection E as <- <-; auto.
  - intros m2 Hl2. apply store_safe; auto.
Qed.

Lemma RgbaToRgb_safe m inp xi yi out xo yo w h :
  wf m inp -> wf m out -> icc inp = 4 -> icc out = 3 ->
  roi_in inp xi yi w h -> roi_in out xo yo w h ->
  safe m (RgbaToRgb m inp xi yi out xo yo w h).
Proof.
  intros W1 Wo C Co R1 Ro. roi_facts m.
  unfold RgbaToRgb, valid_roi2. rewrite !(valid_roi_ok m) by assumption.
  rewrite rgb_true, rgba_true by assumption. cbn [andb]. unfold RGB, RGBA.
  rewrite (row_ptr_origin m inp xi yi w h) by (auto; lia).
  rewrite (row_ptr_origin m out xo yo w h) by (auto; lia).
  rewrite (u32_small (w * 3)) by (destruct Ro; pose proof (wf_bounds _ _ Wo); nia).
  apply (walk2_plain_safe w h _ _ [origin inp xi yi 4] _ [irs inp] 3 [4]); try reflexivity; try lia; auto.
  intros j i m1 Hj Hi Hl. simpl_cells.
  pose proof (cell_px0 m inp xi yi w h i j W1 R1 Hi Hj) as A0. rewrite C in A0.
  pose proof (cell_px m inp xi yi w h i j 1 W1 R1 Hi Hj ltac:(lia)) as A1. rewrite C in A1.
  pose proof (cell_px m inp xi yi w h i j 2 W1 R1 Hi Hj ltac:(lia)) as A2. rewrite C in A2.
  pose proof (cell_px0 m out xo yo w h i j Wo Ro Hi Hj) as B0. rewrite Co in B0.
  pose proof (cell_px m out xo yo w h i j 1 Wo Ro Hi Hj ltac:(lia)) as B1. rewrite Co in B1.
  pose proof (cell_px m out xo yo w h i j 2 Wo Ro Hi Hj ltac:(lia)) as B2. rewrite Co in B2.
  apply moves_safe; auto. intros d s [E|[E|[E|[]]]]; injection E as <- <-; auto.
Qed.

Lemma Transpose_safe m inp xi yi out xo yo w h :
  wf m inp -> wf m out -> icc inp = 1 -> icc out = 1 ->
  roi_in inp xi yi w h -> roi_in out xo yo h w ->
  safe m (Transpose m inp xi yi out xo yo w h).
Proof.
  intros W1 Wo C Co R1 Ro. roi_facts m.
  unfold Transpose. rewrite !(valid_roi_ok m) by assumption.
  rewrite !gray_true by assumption. cbn [andb].
  rewrite (row_ptr_origin m inp xi yi w h) by (auto; lia).
  rewrite (row_ptr_origin m out xo yo h w) by (auto; lia).
  apply (walk2_plain_safe h w _ _ [origin inp xi yi 1] _ [1] 1 [irs inp]); try reflexivity; try lia; auto.
  intros j i m1 Hj Hi Hl. simpl_cells.
  pose proof (cell_px0 m inp xi yi w h j i W1 R1 Hj Hi) as A0. rewrite C in A0.
  rewrite Z.add_comm in A0.
  pose proof (cell_px0 m out xo yo h w i j Wo Ro Hi Hj) as B0. rewrite Co in B0.
  rewrite (load_safe m) by auto. cbn [bind]. apply store_safe; auto.
Qed.

(** ** Invalid arguments *)

Lemma bad_roi im x y w h : u32_image im -> is_u32 x -> is_u32 y -> is_u32 w -> is_u32 h ->
  ~ valid_arg im x y w h -> valid_roi im x y w h = false.
Proof.
  intros [Hw Hh] Hx Hy Hww Hhh Hn. apply not_true_is_false. intros Ht. apply Hn.
  apply valid_roi_true in Ht; auto; unfold in_u32; try tauto; unfold is_u32 in *; lia.
Qed.
Lemma good_roi im x y w h : u32_image im -> is_u32 x -> is_u32 y -> is_u32 w -> is_u32 h ->
  (valid_roi im x y w h = true <-> valid_arg im x y w h).
Proof.
  intros [Hw Hh] Hx Hy Hww Hhh. apply valid_roi_true; unfold in_u32; unfold is_u32 in *; lia.
Qed.

(** ** More safety *)

Lemma Resize_safe m inp xi yi wi hi out xo yo wo ho :
  wf m inp -> wf m out -> icc inp <= icc out ->
  roi_in inp xi yi wi hi -> roi_in out xo yo wo ho ->
  (icc inp = 1 \/ disjoint out 0 0 (iw out) (ih out) inp xi yi wi hi) ->
  safe m (Resize m inp xi yi wi hi out xo yo wo ho).
Proof.
  intros W1 Wo C1 R1 Ro D.
  assert (Hw0 : 0 < wo) by apply Ro. assert (Hh0 : 0 < ho) by apply Ro.
  assert (Hwi : 0 < wi) by apply R1. assert (Hhi : 0 < hi) by apply R1.
  unfold Resize.
  rewrite (valid_roi_ok m inp), (valid_roi_ok m out) by assumption.
  pose proof (wf_cc_pos _ _ Wo) as Hcc. pose proof (wf_cc_pos _ _ W1) as Hcc1.
  rewrite (row_ptr_origin m inp xi yi wi hi) by (auto; lia).
  rewrite (row_ptr_origin m out xo yo wo ho) by (auto; lia).
  pose proof (wf_rs_pos _ _ Wo). pose proof (roi_rows_small m out xo yo wo ho Wo Ro) as Hsm.
  pose proof (wf_rs_pos _ _ W1). pose proof (roi_rows_small m inp xi yi wi hi W1 R1) as Hsmi.
  pose proof (wf_bounds _ _ W1) as (_ & _ & _ & B4). pose proof (wf_bounds _ _ Wo) as (_ & _ & _ & B5).
  assert (Hwo : wo <= iw out) by (destruct Ro; lia).
  rewrite (u32_small (wo * icc inp)) by nia.
  rewrite walk_rows by (auto; lia).
  set (g := fun j i m1 => bind (vnth (positionX wi wo (icc inp)) i) (fun p =>
         let s := padd (padd (origin inp xi yi (icc inp)) (u32 (u32 (j * hi) / ho * irs inp))) p in
         let d := padd (padd (origin out xo yo (icc inp)) (j * irs out)) (i * icc inp) in
         if icc inp =? 1 then bind (load m1 s) (fun a => store m1 d a) else memcpy m1 d s (icc inp)) : res mem mem).
  match goal with |- safe m ?r =>
    assert (Er : r = iterM (Z.to_nat ho) 0 (fun j => iterM (Z.to_nat wo) 0 (fun i => g j i)) m) end.
  { apply iterM_ext. intros j s Hj.
    unfold at_, c0, c1. cbn [combine map nth fst snd padd]. rewrite Z.mul_1_r, Z.add_0_l.
    unfold g. destruct (Z.eqb_spec (icc inp) 1) as [E1|E1].
    - erewrite (walk_iterM wo) by (try reflexivity; try lia; rewrite E1; f_equal; lia).
      apply iterM_ext. intros i t Hi. unfold at_. cbn [combine map nth fst snd padd].
      rewrite Z.add_0_l, E1, !Z.mul_1_r. reflexivity.
    - erewrite (walk_iterM wo) by (try reflexivity; try lia; try nia; f_equal; lia).
      apply iterM_ext. intros i t Hi. unfold at_. cbn [combine map nth fst snd padd].
      rewrite Z.add_0_l, !Z.mul_1_r. reflexivity. }
  rewrite Er. clear Er. apply iterM2_safe. intros j i m1 Hj Hi Hl.
  unfold g. rewrite positionX_nth by lia. cbn [bind]. cbv zeta.
  assert (Hle : forall k a b, 0 <= k < b -> 0 < a -> 0 <= u32 (k * a) / b < a).
  { intros k a b Hk Ha. pose proof (scale_lt k a b Hk Ha).
    assert (0 <= u32 (k * a) <= k * a) by (split; [apply u32_range|unfold u32; apply Z.mod_le; [nia|unfold W32; lia]]).
    split; [apply Z.div_pos; lia|]. eapply Z.le_lt_trans; [apply Z.div_le_mono; [lia|apply H2]|]. lia. }
  pose proof (Hle i wi wo Hi Hwi) as Hx. pose proof (Hle j hi ho Hj Hhi) as Hy.
  set (sx := u32 (i * wi) / wo) in *. set (sy := u32 (j * hi) / ho) in *.
  rewrite (u32_small (sy * irs inp)) by nia.
  assert (wi <= iw inp) by (destruct R1; lia).
  rewrite (u32_small (sx * icc inp)) by nia.
  assert (Hs : forall c, 0 <= c < icc inp ->
     padd (padd (padd (origin inp xi yi (icc inp)) (sy * irs inp)) (sx * icc inp)) c = px inp (xi + sx) (yi + sy) c).
  { intros c Hc. unfold px, origin, padd. cbn [fst snd]. f_equal. ring. }
  assert (Hdi : forall c, 0 <= c < icc inp ->
     padd (padd (padd (origin out xo yo (icc inp)) (j * irs out)) (i * icc inp)) c
     = px out 0 (0 + (yo + j)) ((xo + i) * icc inp + c)).
  { intros c Hc. unfold px, origin, padd. cbn [fst snd]. f_equal. ring. }
  assert (Hsi : forall c, 0 <= c < icc inp -> inb m (px inp (xi + sx) (yi + sy) c) = true).
  { intros c Hc. apply (px_inb m inp xi yi wi hi); auto. unfold inside; lia. }
  assert (Hdd : forall c, 0 <= c < icc inp -> inb m (px out 0 (0 + (yo + j)) ((xo + i) * icc inp + c)) = true
     /\ 0 <= (xo + i) * icc inp + c < iw out * icc out).
  { intros c Hc. assert (0 <= (xo + i) * icc inp + c < iw out * icc out) as Hr.
    { destruct Ro. split; [nia|]. assert ((xo + i) * icc inp + c < (xo + i + 1) * icc inp) by nia.
      assert ((xo + i + 1) * icc inp <= iw out * icc inp) by nia. nia. }
    split; [|exact Hr]. pose proof (cell_inb m out 0 0 (iw out) (ih out) ((xo + i) * icc inp + c) (yo + j) Wo) as Hc2.
    replace (px out 0 (0 + (yo + j)) ((xo + i) * icc inp + c))
      with (padd (origin out 0 0 (icc out)) ((yo + j) * irs out + ((xo + i) * icc inp + c)))
      by (unfold px, origin, padd; cbn [fst snd]; f_equal; ring).
    apply Hc2; [constructor; destruct Ro; pose proof (wf_w _ _ Wo); lia|exact Hr|destruct Ro; lia]. }
  destruct (Z.eqb_spec (icc inp) 1) as [E1|E1].
  - specialize (Hs 0 ltac:(lia)). rewrite padd_0 in Hs. specialize (Hdi 0 ltac:(lia)). rewrite padd_0 in Hdi.
    rewrite Hs, Hdi. rewrite (load_safe m) by (auto; apply Hsi; lia). cbn [bind].
    apply store_safe; auto. apply (Hdd 0). lia.
  - destruct D as [?|D]; [lia|]. unfold memcpy. rewrite overlaps_false.
    + rewrite (loads_ok m1).
      * cbn [bind]. apply stores_safe; auto. intros p Hp. apply span_In in Hp as (c & Hc & ->).
        rewrite Hdi by lia. apply Hdd; lia.
      * intros p Hp. apply span_In in Hp as (c & Hc & ->). rewrite (same_len_inb m) by assumption.
        rewrite Hs by lia. apply Hsi; lia.
    + intros k k' Hk Hk' He. rewrite Hdi, Hs in He by lia.
      destruct (Hdd k Hk) as [_ Hr]. destruct (split_index (icc out) ((xo + i) * icc inp + k) (iw out)) as (A & B & Cx); [lia|lia|].
      apply (D (((xo + i) * icc inp + k) / icc out) (yo + j) (((xo + i) * icc inp + k) mod icc out) sx sy k').
      * unfold inside. destruct Ro. lia.
      * unfold inside. lia.
      * rewrite <- He. unfold px. f_equal. lia.
Qed.

Lemma Flip_safe m inp xi yi out xo yo w h ver :
  wf m inp -> wf m out -> icc inp = 1 -> icc out = 1 ->
  roi_in inp xi yi w h -> roi_in out xo yo w h ->
  safe m (Flip m inp xi yi out xo yo w h true ver).
Proof.
  intros W1 Wo C1 Co R1 Ro. roi_facts m.
  unfold Flip. rewrite !gray_true by assumption.
  unfold valid_roi2. rewrite !(valid_roi_ok m) by assumption. cbn [andb negb].
  rewrite (row_ptr_origin m inp xi yi w h) by (auto; lia).
  rewrite (row_ptr_origin m out xo yo w h) by (auto; lia).
  pose proof (wf_bounds _ _ Wo) as (B1 & B2 & B3 & B4).
  assert (Hlast : padd (padd (dataptr out) (u32 (u32 (yo + h - 1) * irs out))) xo
                  = px out xo (yo + (h - 1)) 0).
  { replace (dataptr out) with (ibase out).
    2:{ unfold dataptr, ibase. destruct (idata out) eqn:E; auto. destruct (wf_data _ _ Wo E). }
    pose proof (wf_size _ _ Wo). destruct Ro.
    rewrite (u32_small (yo + h - 1)) by lia. rewrite u32_small by nia.
    unfold px, padd. cbn [fst snd]. f_equal. rewrite Co. lia. }
  rewrite Hlast. clear Hlast.
  destruct ver; cbn [andb negb].
  - apply (walk2_plain_safe w h _ _ [padd (px out xo (yo + (h - 1)) 0) (w - 1)] _ [- irs out] 1 [-1]);
      try reflexivity; try lia; auto.
    intros j i m1 Hj Hi Hl. simpl_cells.
    pose proof (cell_px0 m inp xi yi w h i j W1 R1 Hi Hj) as A0. rewrite C1 in A0.
    rewrite (load_safe m) by auto. cbn [bind]. apply store_safe; auto.
    pose proof (px_inb m out xo yo w h (w - 1 - i) (h - 1 - j) 0 Wo Ro ltac:(unfold inside; lia)) as B0.
    replace (padd (padd (px out xo (yo + (h - 1)) 0) (w - 1)) (j * - irs out + i * -1))
      with (px out (xo + (w - 1 - i)) (yo + (h - 1 - j)) 0); [exact B0|].
    unfold px, padd. cbn [fst snd]. rewrite Co. f_equal. ring.
  - apply (walk2_plain_safe w h _ _ [padd (origin out xo yo 1) (w - 1)] _ [irs out] 1 [-1]);
      try reflexivity; try lia; auto.
    intros j i m1 Hj Hi Hl. simpl_cells.
    pose proof (cell_px0 m inp xi yi w h i j W1 R1 Hi Hj) as A0. rewrite C1 in A0.
    rewrite (load_safe m) by auto. cbn [bind]. apply store_safe; auto.
    pose proof (px_inb m out xo yo w h (w - 1 - i) j 0 Wo Ro ltac:(unfold inside; lia)) as B0.
    replace (padd (padd (origin out xo yo 1) (w - 1)) (j * irs out + i * -1))
      with (px out (xo + (w - 1 - i)) (yo + j) 0); [exact B0|].
    unfold px, origin, padd. cbn [fst snd]. rewrite Co. f_equal. ring.
Qed.

(** Subtract reads in2 with merged rows when in1 and out have no padding; the addresses
    still lie inside in2. *)
Lemma Subtract_safe m in1 x1 y1 in2 x2 y2 out xo yo w h :
  wf m in1 -> wf m in2 -> wf m out -> icc in1 = icc out -> icc in2 = icc out ->
  roi_in in1 x1 y1 w h -> roi_in in2 x2 y2 w h -> roi_in out xo yo w h ->
  safe m (Subtract m in1 x1 y1 in2 x2 y2 out xo yo w h).
Proof.
  intros W1 W2 Wo C1 C2 R1 R2 Ro. roi_facts m.
  unfold Subtract, pixelwise2, valid_roi3, valid_roi2. rewrite !(valid_roi_ok m) by assumption.
  unfold common_cc3. rewrite C1, C2, Z.eqb_refl. cbn [andb].
  rewrite (row_ptr_origin m in1 x1 y1 w h) by (auto; lia).
  rewrite (row_ptr_origin m in2 x2 y2 w h) by (auto; lia).
  rewrite (row_ptr_origin m out xo yo w h) by (auto; lia).
  rewrite (u32_width m out xo w) by (auto; first [apply Ro|lia]).
  assert (Hwc : 0 < w * icc out) by nia.
  destruct (OptimiseRoi_cases (w * icc out) h (opt3_subtract in1 in2 out)) as [E|(E & Hs & Hrs)]; try lia; rewrite E.
  - apply (walk2_plain_safe (w * icc out) h _ _ [origin in1 x1 y1 (icc out); origin in2 x2 y2 (icc out)]
             _ [irs in1; irs in2] 1 [1; 1]); try reflexivity; try lia; auto.
    intros j i m1 Hj Hi Hl. simpl_cells. rewrite !Z.mul_1_r.
    rewrite (load_safe m) by (auto; rewrite <- C1; apply (cell_inb m in1 x1 y1 w h); auto; lia). cbn [bind].
    rewrite (load_safe m) by (auto; rewrite <- C2; apply (cell_inb m in2 x2 y2 w h); auto; lia). cbn [bind].
    apply store_safe; auto. apply (cell_inb m out xo yo w h); auto.
  - assert (E1 : irs in1 = w * icc out) by (apply Hrs; unfold opt3_subtract; simpl; auto).
    assert (Eo : irs out = w * icc out) by (apply Hrs; unfold opt3_subtract; simpl; auto).
    pose proof (wf_size _ _ Wo).
    apply (walk2_plain_safe (w * icc out * h) 1 _ _ [origin in1 x1 y1 (icc out); origin in2 x2 y2 (icc out)]
             _ [irs in1; irs in2] 1 [1; 1]); try reflexivity; try nia; auto.
    intros j i m1 Hj Hi Hl. simpl_cells. rewrite !Z.mul_1_r.
    assert (j = 0) as -> by lia. rewrite !Z.mul_0_l, !Z.add_0_l.
    set (n := w * icc out) in *.
    assert (Hd : 0 <= i / n < h /\ 0 <= i mod n < n /\ i = i / n * n + i mod n).
    { apply split_index; lia. }
    destruct Hd as (D1 & D2 & D3).
    assert (Hgen : forall im x y, wf m im -> roi_in im x y w h -> icc im = icc out ->
              inb m (padd (origin im x y (icc out)) i) = true).
    { intros im x y Wi Ri Ci. pose proof (cell_inb m im x y w h 0 0 Wi Ri ltac:(nia) ltac:(lia)) as L0.
      pose proof (cell_inb m im x y w h (n - 1) (h - 1) Wi Ri ltac:(unfold n; nia) ltac:(lia)) as L1.
      apply inb_iff in L0, L1. apply inb_iff. rewrite Ci in *. unfold padd in *. cbn [fst snd] in *.
      pose proof (wf_rs _ _ Wi). assert (n <= irs im) by (unfold n; destruct Ri; nia).
      split; [lia|]. assert (i <= (h - 1) * n + (n - 1)) by nia. nia. }
    rewrite (load_safe m) by auto. cbn [bind]. rewrite (load_safe m) by auto. cbn [bind].
    apply store_safe; auto.
Qed.

Lemma iterM2_safe_P m (P : mem -> Prop) (g : Z -> Z -> mem -> res mem mem) h n :
  P m ->
  (forall j i m1, 0 <= j < h -> 0 <= i < n -> P m1 -> exists m2, g j i m1 = Ok m2 /\ P m2) ->
  exists m', iterM (Z.to_nat h) 0 (fun j => iterM (Z.to_nat n) 0 (fun i => g j i)) m = Ok m' /\ P m'.
Proof.
  intros H0 Hs.
  destruct (@iterM_inv mem mem (fun _ t => P t)
              (fun j => iterM (Z.to_nat n) 0 (fun i => g j i)) (Z.to_nat h) 0 m H0) as (t' & He & Hp).
  - intros j u Hj Hu.
    destruct (@iterM_inv mem mem (fun _ t => P t) (fun i => g j i) (Z.to_nat n) 0 u Hu) as (u' & Hue & Hup).
    + intros i v Hi Hv. destruct (Hs j i v) as (v' & Hv' & Hl); [lia|lia|assumption|]. eauto.
    + eauto.
  - exists t'. auto.
Qed.

Lemma LookupTable_safe table m inp xi yi out xo yo w h :
  wf m inp -> wf m out -> icc inp = icc out -> length table = 256%nat ->
  bytes m inp -> (forall v, In v table -> 0 <= v < 256) ->
  roi_in inp xi yi w h -> roi_in out xo yo w h ->
  safe m (LookupTable table m inp xi yi out xo yo w h).
Proof.
  intros W1 Wo C Ht B Hb R1 Ro. roi_facts m.
  unfold LookupTable, pixelwise1, valid_roi2. rewrite !(valid_roi_ok m) by assumption.
  unfold common_cc2. rewrite Ht, C, !Z.eqb_refl. cbn [andb].
  rewrite (row_ptr_origin m inp xi yi w h) by (auto; lia).
  rewrite (row_ptr_origin m out xo yo w h) by (auto; lia).
  rewrite (u32_width m out xo w) by (auto; first [apply Ro|lia]).
  destruct (OptimiseRoi (w * icc out) h [inp; out]) as [w' h'] eqn:Ho.
  rewrite <- (Z.mul_1_r (w * icc out)) in Ho.
  set (P := fun m1 => same_len m m1 /\ forall x y c, 0 <= x < iw inp -> 0 <= y < ih inp -> 0 <= c < icc inp ->
              0 <= pixel m1 inp x y c < 256).
  rewrite (walk2_opt (w * icc out) 1 h [inp; out] w' h' _ [origin inp xi yi (icc out)] _ [irs inp]);
    try reflexivity; try nia; auto.
  2:{ intros r [<-|[<-|[]]]; [exists out|exists inp]; simpl; auto. }
  destruct (iterM2_safe_P m P (fun j i =>
     (fun cs m => bind (load m (c1 cs)) (fun a => bind (vnth table a) (fun v => store m (c0 cs) v)))
       (cells (zip3 [origin out xo yo (icc out); origin inp xi yi (icc out)] [irs out; irs inp] [1; 1]) j i)) h (w * icc out))
    as (m' & He & Hl & _).
  - split; [apply same_len_refl|]. exact B.
  - intros j i m1 Hj Hi (Hl & Hb1). simpl_cells. rewrite !Z.mul_1_r.
    rewrite (load_safe m) by (auto; rewrite <- C; apply (cell_inb m inp xi yi w h); auto; lia). cbn [bind].
    set (a := get m1 (padd (origin inp xi yi (icc out)) (j * irs inp + i))).
    assert (Ha : 0 <= a < 256).
    { unfold a. destruct (split_index (icc out) i w) as (A & A' & A''); [lia|lia|].
      rewrite A''. rewrite <- C at 1. rewrite <- C at 1. rewrite <- C in A, A'.
      specialize (Hb1 (xi + i / icc inp) (yi + j) (i mod icc inp)). unfold pixel in Hb1. rewrite px_origin in Hb1.
      rewrite <- C. apply Hb1; destruct R1; lia. }
    unfold vnth. rewrite Ht. destruct (Z.leb_spec 0 a); [|lia]. destruct (Z.ltb_spec a (Z.of_nat 256)); [|lia].
    cbn [andb bind].
    eexists. split; [apply store_ok; rewrite (same_len_inb m) by assumption; apply (cell_inb m out xo yo w h); auto|].
    split; [intros b; rewrite len_upd; apply Hl|].
    intros x y c Hx Hy Hc. unfold pixel. rewrite get_upd. destruct (ptr_eqb _ _).
    + apply Hb, nth_In. lia.
    + apply Hb1; assumption.
  - exists m'. split; [exact He|exact Hl].
Qed.
