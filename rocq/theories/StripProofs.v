(** The code of a strip task is the scalar function on that strip, and it touches only the
    strip. *)
From Coq Require Import ZArith List Bool Lia Arith.
From Verif Require Import Base Image Spec BaseProofs ImgFun ImgLemmas ImgProofs ConvProofs SafeProofs FuncPool FuncPoolProofs.
Import ListNotations.
Open Scope Z_scope.

Ltac Zify.zify_post_hook ::= Z.div_mod_to_equations.

(** ** Recording a loop *)

(** [L] appends to the list the accesses that [B] makes. *)
Definition emits (L : list instr -> code) (B : mem -> res mem mem) : Prop :=
  forall t t', L t = Ok t' -> exists u, t' = t ++ u /\ forall m, B m = run u m.

Lemma loop_emits strides pend (bodyL : list ptr -> list instr -> code) (bodyM : list ptr -> mem -> res mem mem) :
  (forall cs, emits (bodyL cs) (bodyM cs)) ->
  forall fuel cur t cur' t',
  loop fuel (fun s => negb (ptr_eqb (nth 0 (fst s) nullp) pend))
    (fun s => do t' <- bodyL (fst s) (snd s); Ok (advance (fst s) strides, t')) (cur, t) = Ok (cur', t') ->
  exists u, t' = t ++ u /\ forall m,
  loop fuel (fun s => negb (ptr_eqb (nth 0 (fst s) nullp) pend))
    (fun s => do t' <- bodyM (fst s) (snd s); Ok (advance (fst s) strides, t')) (cur, m)
  = (do m' <- run u m; Ok (cur', m')).
Proof.
  intros Hb. induction fuel as [|fuel IH]; intros cur t cur' t' H; cbn [loop fst snd] in *; [discriminate|].
  destruct (negb (ptr_eqb (nth 0 cur nullp) pend)).
  - apply bind_ok_inv in H as ([c2 t2] & H1 & H2). apply bind_ok_inv in H1 as (t3 & H1 & H3).
    injection H3 as <- <-. destruct (Hb cur t t3 H1) as (u1 & -> & E1).
    destruct (IH _ _ _ _ H2) as (u2 & -> & E2). exists (u1 ++ u2). split; [symmetry; apply app_assoc|].
    intros m. rewrite E1, run_app, !bind_assoc. apply bind_ext. intros m' _. cbn [bind]. apply E2.
  - injection H as <- <-. exists []. split; [symmetry; apply app_nil_r|]. reflexivity.
Qed.

Lemma walk_emits n cur strides pend bodyL bodyM :
  (forall cs, emits (bodyL cs) (bodyM cs)) ->
  emits (walk n cur strides pend bodyL) (walk n cur strides pend bodyM).
Proof.
  intros Hb t t' H. unfold walk in *. apply bind_ok_inv in H as ([c' t2] & H1 & H2).
  injection H2 as <-. cbn [snd].
  destruct (loop_emits strides pend bodyL bodyM Hb _ _ _ _ _ H1) as (u & -> & E).
  exists u. split; auto. intros m. rewrite E, bind_assoc. cbn [bind snd]. apply bind_ok_r.
Qed.

Lemma emits_list l (B : mem -> res mem mem) : (forall m, B m = run l m) -> emits (fun t => Ok (t ++ l)) B.
Proof. intros H t t' E. injection E as <-. eauto. Qed.

Lemma emits_emit i (B : mem -> res mem mem) : (forall m, B m = irun i m) -> emits (emit i) B.
Proof. intros H. apply emits_list. intros m. rewrite H. cbn [run]. symmetry. apply bind_ok_r. Qed.

Lemma run_mv d s m : irun (mv d s) m = (do v <- load m s; store m d v).
Proof.
  unfold irun, mv; cbn [isrc ifn idst loads]. rewrite !bind_assoc. apply bind_ext. intros v _.
  cbn [bind stores]. apply bind_ok_r.
Qed.

Lemma run_mvs l m : run (map (fun q => mv (fst q) (snd q)) l) m = moves m l.
Proof.
  revert m. induction l as [|[d s] l IH]; intros m; [reflexivity|].
  cbn [map run moves fst snd]. rewrite run_mv, !bind_assoc. apply bind_ext. intros v _.
  apply bind_ext. intros m' _. apply IH.
Qed.

Lemma emits_memcpy d s n : emits (memcpy_code d s n) (fun m => memcpy m d s n).
Proof.
  intros t t' H. unfold memcpy_code in H. destruct (overlaps d s n) eqn:E; [discriminate|].
  injection H as <-. eexists. split; [reflexivity|]. intros m. unfold memcpy. rewrite E.
  cbn [run]. unfold irun; cbn [isrc ifn idst]. rewrite bind_ok_r. reflexivity.
Qed.

(** A strip function: its code, the function, the locations it may write and read. *)
Definition strip_ok (c : code) (B : mem -> res mem mem) (Wr Rd : ptr -> Prop) : Prop :=
  exists l, c = Ok l /\ (forall m, B m = run l m) /\
    (forall p, code_writes l p -> Wr p) /\ (forall p, code_reads l p -> Rd p).

Lemma strip_of_emits L (B : mem -> res mem mem) (Wr Rd : ptr -> Prop) l :
  emits L B -> L [] = Ok l ->
  (forall q, In q l -> (forall p, In p (idst q) -> Wr p) /\ (forall p, In p (isrc q) -> Rd p)) ->
  strip_ok (L []) B Wr Rd.
Proof.
  intros He Hl Hq. exists l. split; [exact Hl|]. destruct (He [] l Hl) as (u & -> & Hr). cbn [app] in *.
  split; [exact Hr|]. split; intros p (q & Hin & Hp); destruct (Hq q Hin); auto.
Qed.

(** Closed form of a recorded doubly nested loop. *)
Lemma iterM_emit (P : instr -> Prop) n (g : Z -> list instr -> code) : forall k t,
  (forall i t, k <= i < k + Z.of_nat n -> exists u, g i t = Ok (t ++ u) /\ forall q, In q u -> P q) ->
  exists u, iterM n k g t = Ok (t ++ u) /\ forall q, In q u -> P q.
Proof.
  induction n as [|n IH]; intros k t H; cbn [iterM].
  - exists []. split; [rewrite app_nil_r; reflexivity|]. intros q [].
  - destruct (H k t) as (u & -> & Hu); [lia|]. cbn [bind].
    destruct (IH (k + 1) (t ++ u)) as (v & -> & Hv); [intros; apply H; lia|].
    exists (u ++ v). split; [rewrite app_assoc; reflexivity|].
    intros q Hq. apply in_app_or in Hq as [Hq|Hq]; auto.
Qed.

Lemma iterM2_emit (P : instr -> Prop) h n (g : Z -> Z -> list instr -> code) t :
  (forall j i t, 0 <= j < h -> 0 <= i < n -> exists u, g j i t = Ok (t ++ u) /\ forall q, In q u -> P q) ->
  exists u, iterM (Z.to_nat h) 0 (fun j => iterM (Z.to_nat n) 0 (fun i => g j i)) t = Ok (t ++ u) /\
            forall q, In q u -> P q.
Proof.
  intros H. apply iterM_emit. intros j t1 Hj. apply iterM_emit. intros i t2 Hi. apply H; lia.
Qed.

(** ** Footprints *)

Definition in_roi (im : image) (x y w h : Z) (p : ptr) : Prop :=
  exists i j c, inside w h (icc im) i j c /\ p = px im (x + i) (y + j) c.

Lemma in_roi_cell im x y w h j k : 0 < icc im -> 0 <= j < h -> 0 <= k < w * icc im ->
  in_roi im x y w h (padd (origin im x y (icc im)) (j * irs im + k)).
Proof.
  intros Hc Hj Hk. destruct (split_index (icc im) k w) as (A & B & C); auto.
  exists (k / icc im), j, (k mod icc im). split; [split; [lia|split; lia]|].
  rewrite px_origin. f_equal. lia.
Qed.

Definition good (Wr Rd : ptr -> Prop) (q : instr) : Prop :=
  (forall p, In p (idst q) -> Wr p) /\ (forall p, In p (isrc q) -> Rd p).


Lemma walk2_opt_strip n S h ims w' h' p ps r rs (bodyL : list ptr -> list instr -> code)
    (bodyM : list ptr -> mem -> res mem mem) Wr Rd :
  0 < n -> 0 < S -> 0 < h -> 0 < r ->
  OptimiseRoi (n * S) h ims = (w', h') ->
  (forall x, In x (r :: rs) -> exists im, In im ims /\ x = irs im) ->
  length ps = length rs -> h * r < W32 ->
  (forall cs, emits (bodyL cs) (bodyM cs)) ->
  (forall j i t, 0 <= j < h -> 0 <= i < n ->
     exists u, bodyL (cells (zip3 (p :: ps) (r :: rs) (S :: repeat S (length ps))) j i) t = Ok (t ++ u) /\
               forall q, In q u -> good Wr Rd q) ->
  strip_ok
    (walk h' (p :: ps) (r :: rs) (padd p (u32 (h' * r)))
      (fun cur t => walk w' cur (S :: repeat S (length ps)) (padd (nth 0 cur nullp) w') bodyL t) [])
    (walk h' (p :: ps) (r :: rs) (padd p (u32 (h' * r)))
      (fun cur t => walk w' cur (S :: repeat S (length ps)) (padd (nth 0 cur nullp) w') bodyM t)) Wr Rd.
Proof.
  intros Hn HS Hh Hr Ho Hi Hl Hs He Hb.
  destruct (iterM2_emit (good Wr Rd) h n (fun j i =>
     bodyL (cells (zip3 (p :: ps) (r :: rs) (S :: repeat S (length ps))) j i)) [] Hb) as (l & El & Hg).
  apply (strip_of_emits (walk h' (p :: ps) (r :: rs) (padd p (u32 (h' * r)))
      (fun cur t => walk w' cur (S :: repeat S (length ps)) (padd (nth 0 cur nullp) w') bodyL t)) _ _ _ l).
  - apply walk_emits. intros cs. apply walk_emits. exact He.
  - rewrite (walk2_opt n S h ims) by assumption. exact El.
  - exact Hg.
Qed.

Lemma walk2_plain_strip n h w' p ps r rs c cs (bodyL : list ptr -> list instr -> code)
    (bodyM : list ptr -> mem -> res mem mem) Wr Rd :
  0 <= n -> 0 < c -> 0 <= h -> 0 < r -> w' = n * c ->
  length ps = length rs -> length ps = length cs -> h * r < W32 ->
  (forall cs, emits (bodyL cs) (bodyM cs)) ->
  (forall j i t, 0 <= j < h -> 0 <= i < n ->
     exists u, bodyL (cells (zip3 (p :: ps) (r :: rs) (c :: cs)) j i) t = Ok (t ++ u) /\
               forall q, In q u -> good Wr Rd q) ->
  strip_ok
    (walk h (p :: ps) (r :: rs) (padd p (u32 (h * r)))
      (fun cur t => walk w' cur (c :: cs) (padd (nth 0 cur nullp) w') bodyL t) [])
    (walk h (p :: ps) (r :: rs) (padd p (u32 (h * r)))
      (fun cur t => walk w' cur (c :: cs) (padd (nth 0 cur nullp) w') bodyM t)) Wr Rd.
Proof.
  intros Hn Hc Hh Hr Hw Hl Hl' Hs He Hb.
  destruct (iterM2_emit (good Wr Rd) h n (fun j i =>
     bodyL (cells (zip3 (p :: ps) (r :: rs) (c :: cs)) j i)) [] Hb) as (l & El & Hg).
  apply (strip_of_emits (walk h (p :: ps) (r :: rs) (padd p (u32 (h * r)))
      (fun cur t => walk w' cur (c :: cs) (padd (nth 0 cur nullp) w') bodyL t)) _ _ _ l).
  - apply walk_emits. intros cur. apply walk_emits. exact He.
  - rewrite (walk2_plain n) by assumption. exact El.
  - exact Hg.
Qed.

Lemma strip_ok_weak c (B B' : mem -> res mem mem) (Wr Wr' Rd Rd' : ptr -> Prop) :
  strip_ok c B Wr Rd -> (forall m, B' m = B m) ->
  (forall p, Wr p -> Wr' p) -> (forall p, Rd p -> Rd' p) -> strip_ok c B' Wr' Rd'.
Proof.
  intros (l & E & H1 & H2 & H3) HB HW HR. exists l. split; auto. split; [intros m; rewrite HB; auto|].
  split; auto.
Qed.

Lemma strip_eta c (B : mem -> res mem mem) Wr Rd : strip_ok c B Wr Rd -> strip_ok c (fun m => B m) Wr Rd.
Proof. auto. Qed.

Lemma pixelwise2_strip m opt f in1 x1 y1 in2 x2 y2 out xo yo w h :
  wf m in1 -> wf m in2 -> wf m out -> icc in1 = icc out -> icc in2 = icc out ->
  roi_in in1 x1 y1 w h -> roi_in in2 x2 y2 w h -> roi_in out xo yo w h ->
  (forall im, In im [in1; in2; out] -> exists im', In im' (opt in1 in2 out) /\ irs im = irs im')
  \/ OptimiseRoi (w * icc out) h (opt in1 in2 out) = (w * icc out, h) ->
  strip_ok (pixelwise2_code opt f in1 x1 y1 in2 x2 y2 out xo yo w h)
    (fun m => pixelwise2 opt f m in1 x1 y1 in2 x2 y2 out xo yo w h)
    (in_roi out xo yo w h)
    (fun p => in_roi in1 x1 y1 w h p \/ in_roi in2 x2 y2 w h p).
Proof.
  intros W1 W2 Wo C1 C2 R1 R2 Ro Hopt. roi_facts m.
  unfold pixelwise2, pixelwise2_code, valid_roi3, valid_roi2. rewrite !(valid_roi_ok m) by assumption.
  unfold common_cc3. rewrite C1, C2, Z.eqb_refl. cbn [andb].
  rewrite (row_ptr_origin m in1 x1 y1 w h) by (auto; lia).
  rewrite (row_ptr_origin m in2 x2 y2 w h) by (auto; lia).
  rewrite (row_ptr_origin m out xo yo w h) by (auto; lia).
  rewrite (u32_width m out xo w) by (auto; first [apply Ro|lia]).
  set (bodyL := fun (cs : list ptr) (t : list instr) =>
    (emit (mkInstr [c1 cs; c2 cs] (fun v => Some [f (nth 0 v 0) (nth 1 v 0)]) [c0 cs]) t : code)).
  set (bodyM := fun (cs : list ptr) (m : mem) =>
    bind (load m (c1 cs)) (fun a => bind (load m (c2 cs)) (fun b => store m (c0 cs) (f a b))) : res mem mem).
  assert (He : forall cs, emits (bodyL cs) (bodyM cs)).
  { intros cs. apply emits_emit. intros m1. unfold irun; cbn [isrc ifn idst loads].
    unfold bodyM. rewrite !bind_assoc. apply bind_ext. intros a _. rewrite !bind_assoc. apply bind_ext. intros b _.
    cbn [bind nth stores]. symmetry. apply bind_ok_r. }
  assert (Hcell : forall j i t, 0 <= j < h -> 0 <= i < w * icc out ->
    exists u, bodyL (cells (zip3 [origin out xo yo (icc out); origin in1 x1 y1 (icc out); origin in2 x2 y2 (icc out)]
                              [irs out; irs in1; irs in2] [1; 1; 1]) j i) t = Ok (t ++ u) /\
      forall q, In q u -> good (in_roi out xo yo w h) (fun p => in_roi in1 x1 y1 w h p \/ in_roi in2 x2 y2 w h p) q).
  { intros j i t Hj Hi. eexists. split; [reflexivity|]. intros q [<-|[]]. split; simpl_cells; rewrite !Z.mul_1_r.
    + intros p [<-|[]]. apply in_roi_cell; lia.
    + intros p [<-|[<-|[]]]; [left|right]; [rewrite <- C1|rewrite <- C2]; apply in_roi_cell; lia. }
  destruct Hopt as [Hopt|Hopt].
  - destruct (OptimiseRoi (w * icc out) h (opt in1 in2 out)) as [w' h'] eqn:Ho.
    rewrite <- (Z.mul_1_r (w * icc out)) in Ho.
    apply (walk2_opt_strip (w * icc out) 1 h (opt in1 in2 out) w' h' _
             [origin in1 x1 y1 (icc out); origin in2 x2 y2 (icc out)] _ [irs in1; irs in2] bodyL bodyM);
      try reflexivity; try nia; auto.
    intros x [<-|[<-|[<-|[]]]];
      [destruct (Hopt out) as (im & A & B)|destruct (Hopt in1) as (im & A & B)
      |destruct (Hopt in2) as (im & A & B)]; simpl; eauto.
  - rewrite Hopt.
    apply (walk2_plain_strip (w * icc out) h (w * icc out) _
             [origin in1 x1 y1 (icc out); origin in2 x2 y2 (icc out)] _ [irs in1; irs in2] 1 [1; 1] bodyL bodyM);
      try reflexivity; try nia; auto.
Qed.

Lemma pixelwise1_strip m pre (f : Z -> option Z) (g : Z -> res mem Z) inp xi yi out xo yo w h :
  wf m inp -> wf m out -> icc inp = icc out -> pre inp out = true ->
  roi_in inp xi yi w h -> roi_in out xo yo w h ->
  (forall a, g a = match f a with Some r => Ok r | None => UB end) ->
  strip_ok (pixelwise1_code pre f inp xi yi out xo yo w h)
    (fun m => pixelwise1 pre g m inp xi yi out xo yo w h)
    (in_roi out xo yo w h) (in_roi inp xi yi w h).
Proof.
  intros W1 Wo C P R1 Ro Hg. roi_facts m.
  unfold pixelwise1, pixelwise1_code, valid_roi2. rewrite !(valid_roi_ok m) by assumption.
  rewrite P, C. cbn [andb].
  rewrite (row_ptr_origin m inp xi yi w h) by (auto; lia).
  rewrite (row_ptr_origin m out xo yo w h) by (auto; lia).
  rewrite (u32_width m out xo w) by (auto; first [apply Ro|lia]).
  destruct (OptimiseRoi (w * icc out) h [inp; out]) as [w' h'] eqn:Ho.
  rewrite <- (Z.mul_1_r (w * icc out)) in Ho.
  apply (walk2_opt_strip (w * icc out) 1 h [inp; out] w' h' _ [origin inp xi yi (icc out)] _ [irs inp]
           (fun cs t => emit (mkInstr [c1 cs] (fun v => match f (nth 0 v 0) with Some r => Some [r] | None => None end) [c0 cs]) t)
           (fun cs m => do a <- load m (c1 cs); do v <- g a; store m (c0 cs) v));
    try reflexivity; try nia; auto.
  - intros r [<-|[<-|[]]]; [exists out|exists inp]; simpl; auto.
  - intros cs. apply emits_emit. intros m1. unfold irun; cbn [isrc ifn idst loads].
    rewrite !bind_assoc. apply bind_ext. intros a _. cbn [bind nth]. rewrite Hg.
    destruct (f a); cbn [bind stores]; [symmetry; apply bind_ok_r|reflexivity].
  - intros j i t Hj Hi. eexists. split; [reflexivity|]. intros q [<-|[]]. split; simpl_cells; rewrite !Z.mul_1_r.
    + intros p [<-|[]]. apply in_roi_cell; lia.
    + intros p [<-|[]]. rewrite <- C. apply in_roi_cell; lia.
Qed.

Lemma ConvertToGrayScale_strip_rgb m inp xi yi out xo yo w h :
  wf m inp -> wf m out -> icc inp = 3 -> icc out = 1 ->
  roi_in inp xi yi w h -> roi_in out xo yo w h ->
  strip_ok (ConvertToGrayScale_code inp xi yi out xo yo w h)
    (fun m => ConvertToGrayScale m inp xi yi out xo yo w h)
    (in_roi out xo yo w h) (in_roi inp xi yi w h).
Proof.
  intros W1 Wo Ci Co R1 Ro. roi_facts m.
  unfold ConvertToGrayScale, ConvertToGrayScale_code, valid_roi2. rewrite !(valid_roi_ok m) by assumption.
  rewrite gray_true by assumption. unfold GRAY_SCALE, RGB. rewrite Ci. cbn [andb Z.eqb Pos.eqb].
  rewrite (row_ptr_origin m inp xi yi w h) by (auto; lia).
  rewrite (row_ptr_origin m out xo yo w h) by (auto; lia).
  apply (walk2_plain_strip w h w _ [origin inp xi yi 3] _ [irs inp] 1 [3]
           (fun cs t => emit (mkInstr [c1 cs; padd (c1 cs) 1; padd (c1 cs) 2]
                    (fun v => Some [u8 ((nth 0 v 0 + nth 1 v 0 + nth 2 v 0) / 3)]) [c0 cs]) t)
           (fun cs m => do a <- load m (c1 cs); do b <- load m (padd (c1 cs) 1);
              do c <- load m (padd (c1 cs) 2); store m (c0 cs) (u8 ((a + b + c) / 3))));
    try reflexivity; try lia; auto.
  - intros cs. apply emits_emit. intros m1. unfold irun; cbn [isrc ifn idst loads].
    rewrite !bind_assoc. apply bind_ext. intros a _. rewrite !bind_assoc. apply bind_ext. intros b _.
    rewrite !bind_assoc. apply bind_ext. intros c _.
    cbn [bind nth stores]. symmetry. apply bind_ok_r.
  - intros j i t Hj Hi. eexists. split; [reflexivity|]. intros q [<-|[]]. split; simpl_cells.
    + intros p [<-|[]]. rewrite <- Co. apply in_roi_cell; lia.
    + rewrite !padd_padd. intros p Hp.
      assert (Hx : exists k, 0 <= k < 3 /\ p = padd (origin inp xi yi 3) (j * irs inp + (i * 3 + k))).
      { destruct Hp as [<-|[<-|[<-|[]]]]; [exists 0|exists 1|exists 2]; (split; [lia|f_equal; lia]). }
      destruct Hx as (k & Hk & ->). rewrite <- Ci. apply in_roi_cell; lia.
Qed.

Lemma ConvertToRgb_strip_gray m inp xi yi out xo yo w h :
  wf m inp -> wf m out -> icc inp = 1 -> icc out = 3 ->
  roi_in inp xi yi w h -> roi_in out xo yo w h ->
  strip_ok (ConvertToRgb_code inp xi yi out xo yo w h)
    (fun m => ConvertToRgb m inp xi yi out xo yo w h)
    (in_roi out xo yo w h) (in_roi inp xi yi w h).
Proof.
  intros W1 Wo Ci Co R1 Ro. roi_facts m.
  unfold ConvertToRgb, ConvertToRgb_code, valid_roi2. rewrite !(valid_roi_ok m) by assumption.
  rewrite rgb_true by assumption. unfold RGB. rewrite Ci. cbn [andb Z.eqb Pos.eqb].
  rewrite (row_ptr_origin m inp xi yi w h) by (auto; lia).
  rewrite (row_ptr_origin m out xo yo w h) by (auto; lia).
  replace (u32 (w * 3)) with (w * 3)
    by (rewrite <- Co; rewrite (u32_width m out xo w) by (auto; first [apply Ro|lia]); reflexivity).
  apply (walk2_plain_strip w h (w * 3) _ [origin inp xi yi 1] _ [irs inp] 3 [1]
           (fun cs t => emit (mkInstr [c1 cs] (fun v => Some (repeat (nth 0 v 0) (Z.to_nat 3)))
                    (span (c0 cs) (Z.to_nat 3))) t)
           (fun cs m => do a <- load m (c1 cs); memset m (c0 cs) a 3));
    try reflexivity; try lia; auto.
  - intros cs. apply emits_emit. intros m1. unfold irun; cbn [isrc ifn idst loads].
    rewrite !bind_assoc. apply bind_ext. intros a _. cbn [bind nth]. reflexivity.
  - intros j i t Hj Hi. eexists. split; [reflexivity|]. intros q [<-|[]]. split; simpl_cells.
    + intros p Hp. apply span_In in Hp as (k & Hk & ->). rewrite padd_padd.
      replace (j * irs out + i * 3 + k) with (j * irs out + (i * 3 + k)) by lia.
      rewrite <- Co. apply in_roi_cell; lia.
    + intros p [<-|[]]. rewrite <- Ci. apply in_roi_cell; lia.
Qed.

Lemma ExtractChannel_strip m ch inp xi yi out xo yo w h :
  wf m inp -> wf m out -> icc out = 1 -> 0 <= ch < icc inp ->
  roi_in inp xi yi w h -> roi_in out xo yo w h ->
  strip_ok (ExtractChannel_code ch inp xi yi out xo yo w h)
    (fun m => ExtractChannel m inp xi yi out xo yo w h ch)
    (in_roi out xo yo w h) (in_roi inp xi yi w h).
Proof.
  intros W1 Wo Co Hch R1 Ro. roi_facts m.
  unfold ExtractChannel, ExtractChannel_code, valid_roi2. rewrite !(valid_roi_ok m) by assumption.
  rewrite gray_true by assumption. destruct (Z.ltb_spec ch (icc inp)); [|lia]. cbn [andb].
  rewrite (row_ptr_origin m inp xi yi w h) by (auto; lia).
  rewrite (row_ptr_origin m out xo yo w h) by (auto; lia).
  apply (walk2_plain_strip w h w _ [padd (origin inp xi yi (icc inp)) ch] _ [irs inp] 1 [icc inp]
           (fun cs t => emit (mv (c0 cs) (c1 cs)) t)
           (fun cs m => do a <- load m (c1 cs); store m (c0 cs) a));
    try reflexivity; try lia; auto.
  - intros cs. apply emits_emit. intros m1. symmetry. apply run_mv.
  - intros j i t Hj Hi. eexists. split; [reflexivity|]. intros q [<-|[]]. split; unfold mv; simpl_cells.
    + intros p [<-|[]]. rewrite <- Co. apply in_roi_cell; lia.
    + intros p [<-|[]]. rewrite padd_padd.
      replace (ch + (j * irs inp + i * icc inp)) with (j * irs inp + (i * icc inp + ch)) by lia.
      apply in_roi_cell; nia.
Qed.

Lemma Merge_strip m in1 x1 y1 in2 x2 y2 in3 x3 y3 out xo yo w h :
  wf m in1 -> wf m in2 -> wf m in3 -> wf m out ->
  icc in1 = 1 -> icc in2 = 1 -> icc in3 = 1 -> icc out = 3 ->
  roi_in in1 x1 y1 w h -> roi_in in2 x2 y2 w h -> roi_in in3 x3 y3 w h -> roi_in out xo yo w h ->
  strip_ok (Merge_code in1 x1 y1 in2 x2 y2 in3 x3 y3 out xo yo w h)
    (fun m => Merge m in1 x1 y1 in2 x2 y2 in3 x3 y3 out xo yo w h)
    (in_roi out xo yo w h)
    (fun p => in_roi in1 x1 y1 w h p \/ in_roi in2 x2 y2 w h p \/ in_roi in3 x3 y3 w h p).
Proof.
  intros W1 W2 W3 Wo C1 C2 C3 Co R1 R2 R3 Ro. roi_facts m.
  unfold Merge, Merge_code, valid_roi3, valid_roi2. rewrite !(valid_roi_ok m) by assumption.
  rewrite !gray_true, rgb_true by assumption. unfold RGB. cbn [andb].
  rewrite (row_ptr_origin m in1 x1 y1 w h) by (auto; lia).
  rewrite (row_ptr_origin m in2 x2 y2 w h) by (auto; lia).
  rewrite (row_ptr_origin m in3 x3 y3 w h) by (auto; lia).
  rewrite (row_ptr_origin m out xo yo w h) by (auto; lia).
  replace (u32 (w * 3)) with (w * 3)
    by (rewrite <- Co; rewrite (u32_width m out xo w) by (auto; first [apply Ro|lia]); reflexivity).
  apply (walk2_plain_strip w h (w * 3) _ [origin in1 x1 y1 1; origin in2 x2 y2 1; origin in3 x3 y3 1] _
           [irs in1; irs in2; irs in3] 3 [1; 1; 1]
           (fun cs t => Ok (t ++ [mv (c0 cs) (c1 cs); mv (padd (c0 cs) 1) (c2 cs); mv (padd (c0 cs) 2) (c3 cs)]))
           (fun cs m => moves m [(c0 cs, c1 cs); (padd (c0 cs) 1, c2 cs); (padd (c0 cs) 2, c3 cs)]));
    try reflexivity; try lia; auto.
  - intros cs. apply emits_list. intros m1. rewrite <- run_mvs. reflexivity.
  - intros j i t Hj Hi. eexists. split; [reflexivity|]. intros q Hq.
    assert (Hout : forall k, 0 <= k < 3 -> in_roi out xo yo w h (padd (padd (origin out xo yo 3) (j * irs out + i * 3)) k)).
    { intros k Hk. rewrite padd_padd. replace (j * irs out + i * 3 + k) with (j * irs out + (i * 3 + k)) by lia.
      rewrite <- Co. apply in_roi_cell; lia. }
    revert Hq. simpl_cells. intros [<-|[<-|[<-|[]]]]; split; intros p [<-|[]].
    + pose proof (Hout 0) as H'. rewrite padd_0 in H'. apply H'; lia.
    + left. rewrite <- C1. apply in_roi_cell; lia.
    + apply Hout; lia.
    + right; left. rewrite <- C2. apply in_roi_cell; lia.
    + apply Hout; lia.
    + right; right. rewrite <- C3. apply in_roi_cell; lia.
Qed.

Lemma Split_strip m inp xi yi o1 x1 y1 o2 x2 y2 o3 x3 y3 w h :
  wf m inp -> wf m o1 -> wf m o2 -> wf m o3 ->
  icc inp = 3 -> icc o1 = 1 -> icc o2 = 1 -> icc o3 = 1 ->
  roi_in inp xi yi w h -> roi_in o1 x1 y1 w h -> roi_in o2 x2 y2 w h -> roi_in o3 x3 y3 w h ->
  strip_ok (Split_code inp xi yi o1 x1 y1 o2 x2 y2 o3 x3 y3 w h)
    (fun m => Split m inp xi yi o1 x1 y1 o2 x2 y2 o3 x3 y3 w h)
    (fun p => in_roi o1 x1 y1 w h p \/ in_roi o2 x2 y2 w h p \/ in_roi o3 x3 y3 w h p)
    (in_roi inp xi yi w h).
Proof.
  intros Wi W1 W2 W3 Ci C1 C2 C3 Ri R1 R2 R3. roi_facts m.
  unfold Split, Split_code, valid_roi3, valid_roi2. rewrite !(valid_roi_ok m) by assumption.
  rewrite !gray_true, rgb_true by assumption. unfold RGB. cbn [andb].
  rewrite (row_ptr_origin m inp xi yi w h) by (auto; lia).
  rewrite (row_ptr_origin m o1 x1 y1 w h) by (auto; lia).
  rewrite (row_ptr_origin m o2 x2 y2 w h) by (auto; lia).
  rewrite (row_ptr_origin m o3 x3 y3 w h) by (auto; lia).
  replace (u32 (w * 3)) with (w * 3)
    by (rewrite <- Ci; rewrite (u32_width m inp xi w) by (auto; first [apply Ri|lia]); reflexivity).
  apply (walk2_plain_strip w h (w * 3) _ [origin o1 x1 y1 1; origin o2 x2 y2 1; origin o3 x3 y3 1] _
           [irs o1; irs o2; irs o3] 3 [1; 1; 1]
           (fun cs t => Ok (t ++ [mv (c1 cs) (c0 cs); mv (c2 cs) (padd (c0 cs) 1); mv (c3 cs) (padd (c0 cs) 2)]))
           (fun cs m => moves m [(c1 cs, c0 cs); (c2 cs, padd (c0 cs) 1); (c3 cs, padd (c0 cs) 2)]));
    try reflexivity; try lia; auto.
  - intros cs. apply emits_list. intros m1. rewrite <- run_mvs. reflexivity.
  - intros j i t Hj Hi. eexists. split; [reflexivity|]. intros q Hq.
    assert (Hin : forall k, 0 <= k < 3 -> in_roi inp xi yi w h (padd (padd (origin inp xi yi 3) (j * irs inp + i * 3)) k)).
    { intros k Hk. rewrite padd_padd. replace (j * irs inp + i * 3 + k) with (j * irs inp + (i * 3 + k)) by lia.
      rewrite <- Ci. apply in_roi_cell; lia. }
    revert Hq. simpl_cells. intros [<-|[<-|[<-|[]]]]; split; intros p [<-|[]].
    + left. rewrite <- C1. apply in_roi_cell; lia.
    + pose proof (Hin 0) as H'. rewrite padd_0 in H'. apply H'; lia.
    + right; left. rewrite <- C2. apply in_roi_cell; lia.
    + apply Hin; lia.
    + right; right. rewrite <- C3. apply in_roi_cell; lia.
    + apply Hin; lia.
Qed.

Lemma RgbToBgr_strip m inp xi yi out xo yo w h :
  wf m inp -> wf m out -> icc inp = 3 -> icc out = 3 ->
  roi_in inp xi yi w h -> roi_in out xo yo w h ->
  strip_ok (RgbToBgr_code inp xi yi out xo yo w h)
    (fun m => RgbToBgr m inp xi yi out xo yo w h)
    (in_roi out xo yo w h) (in_roi inp xi yi w h).
Proof.
  intros W1 Wo Ci Co R1 Ro. roi_facts m.
  unfold RgbToBgr, RgbToBgr_code, valid_roi2. rewrite !(valid_roi_ok m) by assumption.
  rewrite !rgb_true by assumption. unfold RGB. cbn [andb].
  rewrite (row_ptr_origin m inp xi yi w h) by (auto; lia).
  rewrite (row_ptr_origin m out xo yo w h) by (auto; lia).
  replace (u32 (w * 3)) with (w * 3)
    by (rewrite <- Co; rewrite (u32_width m out xo w) by (auto; first [apply Ro|lia]); reflexivity).
  destruct (OptimiseRoi (w * 3) h [inp; out]) as [w' h'] eqn:Ho.
  apply (walk2_opt_strip w 3 h [inp; out] w' h' _ [origin inp xi yi 3] _ [irs inp]
           (fun cs t => Ok (t ++ [mv (padd (c0 cs) 2) (c1 cs); mv (padd (c0 cs) 1) (padd (c1 cs) 1);
                                mv (c0 cs) (padd (c1 cs) 2)]))
           (fun cs m => moves m [(padd (c0 cs) 2, c1 cs); (padd (c0 cs) 1, padd (c1 cs) 1);
                               (c0 cs, padd (c1 cs) 2)]));
    try reflexivity; try lia; auto.
  - intros r [<-|[<-|[]]]; [exists out|exists inp]; simpl; auto.
  - intros cs. apply emits_list. intros m1. rewrite <- run_mvs. reflexivity.
  - intros j i t Hj Hi. eexists. split; [reflexivity|]. intros q Hq.
    assert (Hin : forall k, 0 <= k < 3 -> in_roi inp xi yi w h (padd (padd (origin inp xi yi 3) (j * irs inp + i * 3)) k)).
    { intros k Hk. rewrite padd_padd. replace (j * irs inp + i * 3 + k) with (j * irs inp + (i * 3 + k)) by lia.
      rewrite <- Ci. apply in_roi_cell; lia. }
    assert (Hout : forall k, 0 <= k < 3 -> in_roi out xo yo w h (padd (padd (origin out xo yo 3) (j * irs out + i * 3)) k)).
    { intros k Hk. rewrite padd_padd. replace (j * irs out + i * 3 + k) with (j * irs out + (i * 3 + k)) by lia.
      rewrite <- Co. apply in_roi_cell; lia. }
    pose proof (Hin 0 ltac:(lia)) as Hin0. pose proof (Hout 0 ltac:(lia)) as Hout0. rewrite padd_0 in Hin0, Hout0.
    revert Hq. simpl_cells. intros [<-|[<-|[<-|[]]]]; split; intros p [<-|[]];
      first [exact Hin0|exact Hout0|apply Hin; lia|apply Hout; lia].
Qed.

Lemma Transpose_strip m inp xi yi out xo yo w h :
  wf m inp -> wf m out -> icc inp = 1 -> icc out = 1 ->
  roi_in inp xi yi w h -> roi_in out xo yo h w ->
  strip_ok (Transpose_code inp xi yi out xo yo w h)
    (fun m => Transpose m inp xi yi out xo yo w h)
    (in_roi out xo yo h w) (in_roi inp xi yi w h).
Proof.
  intros W1 Wo Ci Co R1 Ro. roi_facts m.
  unfold Transpose, Transpose_code. rewrite !(valid_roi_ok m) by assumption.
  rewrite !gray_true by assumption. cbn [andb].
  rewrite (row_ptr_origin m inp xi yi w h) by (auto; lia).
  rewrite (row_ptr_origin m out xo yo h w) by (auto; lia).
  apply (walk2_plain_strip h w h _ [origin inp xi yi 1] _ [1] 1 [irs inp]
           (fun cs t => emit (mv (c0 cs) (c1 cs)) t)
           (fun cs m => do a <- load m (c1 cs); store m (c0 cs) a));
    try reflexivity; try lia; auto.
  - intros cs. apply emits_emit. intros m1. symmetry. apply run_mv.
  - intros j i t Hj Hi. eexists. split; [reflexivity|]. intros q [<-|[]]. split; unfold mv; simpl_cells.
    + intros p [<-|[]]. rewrite <- Co. apply in_roi_cell; lia.
    + intros p [<-|[]]. replace (j * 1 + i * irs inp) with (i * irs inp + j) by lia.
      rewrite <- Ci. apply in_roi_cell; lia.
Qed.

Lemma walk_rows_strip h p ps r rs (bodyL : list ptr -> list instr -> code)
    (bodyM : list ptr -> mem -> res mem mem) (Wr Rd : ptr -> Prop) :
  0 <= h -> 0 < r -> h * r < W32 -> length ps = length rs ->
  (forall cs, emits (bodyL cs) (bodyM cs)) ->
  (forall j t, 0 <= j < h ->
     exists u, bodyL (at_ (p :: ps) (r :: rs) j) t = Ok (t ++ u) /\ forall q, In q u -> good Wr Rd q) ->
  strip_ok (walk h (p :: ps) (r :: rs) (padd p (u32 (h * r))) bodyL [])
    (walk h (p :: ps) (r :: rs) (padd p (u32 (h * r))) bodyM) Wr Rd.
Proof.
  intros Hh Hr Hs Hl He Hb.
  destruct (iterM_emit (good Wr Rd) (Z.to_nat h) (fun j => bodyL (at_ (p :: ps) (r :: rs) j)) 0 []) as (l & El & Hg).
  { intros j t Hj. apply Hb. lia. }
  apply (strip_of_emits (walk h (p :: ps) (r :: rs) (padd p (u32 (h * r))) bodyL) _ _ _ l).
  - apply walk_emits. exact He.
  - rewrite walk_rows by assumption. exact El.
  - exact Hg.
Qed.

Lemma Copy_strip m inp xi yi out xo yo w h :
  wf m inp -> wf m out -> icc inp = icc out ->
  roi_in inp xi yi w h -> roi_in out xo yo w h ->
  disjoint out xo yo w h inp xi yi w h ->
  strip_ok (Copy_code inp xi yi out xo yo w h) (fun m => Copy m inp xi yi out xo yo w h)
    (in_roi out xo yo w h) (in_roi inp xi yi w h).
Proof.
  intros W1 Wo C R1 Ro D. roi_facts m.
  unfold Copy, Copy_code, valid_roi2, common_cc2. rewrite !(valid_roi_ok m) by assumption.
  rewrite C, Z.eqb_refl. cbn [andb].
  rewrite (row_ptr_origin m inp xi yi w h) by (auto; lia).
  rewrite (row_ptr_origin m out xo yo w h) by (auto; lia).
  rewrite (u32_width m out xo w) by (auto; first [apply Ro|lia]).
  destruct (OptimiseRoi (w * icc out) h [inp; out]) as [w' h'] eqn:Ho.
  assert (Hc : 0 < h' <= h /\ 0 < w' /\ forall j k, 0 <= j < h' -> 0 <= k < w' ->
     exists j' k', 0 <= j' < h /\ 0 <= k' < w * icc out /\
       j * irs out + k = j' * irs out + k' /\ j * irs inp + k = j' * irs inp + k').
  { destruct (OptimiseRoi_cases (w * icc out) h [inp; out]) as [E1|(E1 & Hlt & Hall)]; try nia.
    - rewrite E1 in Ho. injection Ho as <- <-. split; [lia|]. split; [nia|]. intros j k Hj Hk. exists j, k. auto.
    - rewrite E1 in Ho. injection Ho as <- <-. split; [lia|]. split; [nia|]. intros j k Hj Hk.
      assert (j = 0) by lia. subst j.
      pose proof (Hall out) as A1. pose proof (Hall inp) as A2. simpl in A1, A2.
      pose proof (Z.div_mod k (w * icc out)). pose proof (Z.mod_pos_bound k (w * icc out)).
      exists (k / (w * icc out)), (k mod (w * icc out)). rewrite A1, A2 by auto.
      split; [split; [apply Z.div_pos; nia|apply Z.div_lt_upper_bound; nia]|]. split; [nia|]. split; nia. }
  destruct Hc as (Hh' & Hw' & Hcell).
  apply (walk_rows_strip h' _ [origin inp xi yi (icc out)] _ [irs inp]
           (fun cs t => memcpy_code (c0 cs) (c1 cs) w' t) (fun cs m => memcpy m (c0 cs) (c1 cs) w'));
    try reflexivity; try nia; auto.
  - intros cs. apply emits_memcpy.
  - intros j t Hj. unfold at_, c0, c1. cbn [combine map nth fst snd].
    unfold memcpy_code. rewrite overlaps_false.
    + eexists. split; [reflexivity|]. intros q [<-|[]]. split; cbn [isrc idst].
      * intros p Hp. apply span_In in Hp as (k & Hk & ->). rewrite padd_padd.
        destruct (Hcell j k) as (j' & k' & A & B & -> & _); try lia. apply in_roi_cell; lia.
      * intros p Hp. apply span_In in Hp as (k & Hk & ->). rewrite padd_padd.
        destruct (Hcell j k) as (j' & k' & A & B & _ & ->); try lia. rewrite <- C. apply in_roi_cell; lia.
    + intros i i' Hi Hi'. rewrite !padd_padd.
      destruct (Hcell j i) as (j1 & k1 & A1 & B1 & -> & _); try lia.
      destruct (Hcell j i') as (j2 & k2 & A2 & B2 & _ & ->); try lia.
      rewrite <- C at 2. apply (disjoint_samples out xo yo w h inp xi yi w h); auto; lia.
Qed.

Lemma ConvertToGrayScale_strip_gray m inp xi yi out xo yo w h :
  wf m inp -> wf m out -> icc inp = 1 -> icc out = 1 ->
  roi_in inp xi yi w h -> roi_in out xo yo w h -> disjoint out xo yo w h inp xi yi w h ->
  strip_ok (ConvertToGrayScale_code inp xi yi out xo yo w h)
    (fun m => ConvertToGrayScale m inp xi yi out xo yo w h)
    (in_roi out xo yo w h) (in_roi inp xi yi w h).
Proof.
  intros W1 Wo Ci Co R1 Ro D.
  unfold ConvertToGrayScale, ConvertToGrayScale_code, valid_roi2. rewrite !(valid_roi_ok m) by assumption.
  rewrite gray_true by assumption. unfold GRAY_SCALE, RGB. rewrite Ci. cbn [andb Z.eqb Pos.eqb].
  apply (Copy_strip m); auto; congruence.
Qed.

Lemma ConvertToRgb_strip_rgb m inp xi yi out xo yo w h :
  wf m inp -> wf m out -> icc inp = 3 -> icc out = 3 ->
  roi_in inp xi yi w h -> roi_in out xo yo w h -> disjoint out xo yo w h inp xi yi w h ->
  strip_ok (ConvertToRgb_code inp xi yi out xo yo w h)
    (fun m => ConvertToRgb m inp xi yi out xo yo w h)
    (in_roi out xo yo w h) (in_roi inp xi yi w h).
Proof.
  intros W1 Wo Ci Co R1 Ro D.
  unfold ConvertToRgb, ConvertToRgb_code, valid_roi2. rewrite !(valid_roi_ok m) by assumption.
  rewrite rgb_true by assumption. unfold RGB. rewrite Ci. cbn [andb Z.eqb Pos.eqb].
  apply (Copy_strip m); auto; congruence.
Qed.

Lemma in_roi_px im x y w h i j c p : inside w h (icc im) i j c -> p = px im (x + i) (y + j) c ->
  in_roi im x y w h p.
Proof. intros H ->. exists i, j, c. auto. Qed.

Lemma Flip_strip m hor ver inp xi yi out xo yo w h :
  wf m inp -> wf m out -> icc inp = 1 -> icc out = 1 ->
  roi_in inp xi yi w h -> roi_in out xo yo w h -> disjoint out xo yo w h inp xi yi w h ->
  strip_ok (Flip_code hor ver inp xi yi out xo yo w h)
    (fun m => Flip m inp xi yi out xo yo w h hor ver)
    (in_roi out xo yo w h) (in_roi inp xi yi w h).
Proof.
  intros W1 Wo C1 Co R1 Ro D. roi_facts m.
  unfold Flip, Flip_code. rewrite !gray_true by assumption.
  unfold valid_roi2. rewrite !(valid_roi_ok m) by assumption. cbn [andb].
  destruct (negb hor && negb ver) eqn:E0.
  { apply (Copy_strip m); auto; congruence. }
  rewrite (row_ptr_origin m inp xi yi w h) by (auto; lia).
  rewrite (row_ptr_origin m out xo yo w h) by (auto; lia).
  pose proof (wf_bounds _ _ Wo) as (B1 & B2 & B3 & B4).
  assert (Hlast : padd (padd (dataptr out) (u32 (u32 (yo + h - 1) * irs out))) xo
                  = px out xo (yo + (h - 1)) 0).
  { replace (dataptr out) with (ibase out).
    2:{ unfold dataptr, ibase. destruct (idata out) eqn:E; auto. destruct (wf_data _ _ Wo E). }
    pose proof (wf_size _ _ Wo). destruct Ro.
    rewrite (u32_small (yo + h - 1)) by lia. rewrite u32_small by nia.
    unfold px, padd. cbn [fst snd]. f_equal. rewrite Co. lia. }
  rewrite Hlast.
  destruct hor, ver; try discriminate E0; cbn [andb negb].
  - apply (walk2_plain_strip w h w _ [padd (px out xo (yo + (h - 1)) 0) (w - 1)] _ [- irs out] 1 [-1]
             (fun cs t => emit (mv (c1 cs) (c0 cs)) t) (fun cs m => do a <- load m (c0 cs); store m (c1 cs) a));
      try reflexivity; try lia; auto.
    + intros cs. apply emits_emit. intros m1. symmetry. apply run_mv.
    + intros j i t Hj Hi. eexists. split; [reflexivity|]. intros q [<-|[]]. split; unfold mv; simpl_cells.
      * intros p [<-|[]]. apply (in_roi_px _ _ _ _ _ (w - 1 - i) (h - 1 - j) 0); [unfold inside; lia|].
        unfold px, padd. cbn [fst snd]. rewrite Co. f_equal. ring.
      * intros p [<-|[]]. rewrite <- C1. apply in_roi_cell; lia.
  - apply (walk2_plain_strip w h w _ [padd (origin out xo yo 1) (w - 1)] _ [irs out] 1 [-1]
             (fun cs t => emit (mv (c1 cs) (c0 cs)) t) (fun cs m => do a <- load m (c0 cs); store m (c1 cs) a));
      try reflexivity; try lia; auto.
    + intros cs. apply emits_emit. intros m1. symmetry. apply run_mv.
    + intros j i t Hj Hi. eexists. split; [reflexivity|]. intros q [<-|[]]. split; unfold mv; simpl_cells.
      * intros p [<-|[]]. apply (in_roi_px _ _ _ _ _ (w - 1 - i) j 0); [unfold inside; lia|].
        unfold px, origin, padd. cbn [fst snd]. rewrite Co. f_equal. ring.
      * intros p [<-|[]]. rewrite <- C1. apply in_roi_cell; lia.
  - apply (walk_rows_strip h _ [px out xo (yo + (h - 1)) 0] _ [- irs out]
             (fun cs t => memcpy_code (c1 cs) (c0 cs) w t) (fun cs m => memcpy m (c1 cs) (c0 cs) w));
      try reflexivity; try lia; auto.
    + intros cs. apply emits_memcpy.
    + intros j t Hj. unfold at_, c0, c1. cbn [combine map nth fst snd].
      assert (Hd : forall k, padd (padd (px out xo (yo + (h - 1)) 0) (j * - irs out)) k = px out (xo + k) (yo + (h - 1 - j)) 0).
      { intros k. unfold px, padd. cbn [fst snd]. rewrite Co. f_equal. ring. }
      assert (Hs : forall k, padd (padd (origin inp xi yi 1) (j * irs inp)) k = px inp (xi + k) (yi + j) 0).
      { intros k. unfold px, origin, padd. cbn [fst snd]. rewrite C1. f_equal. ring. }
      unfold memcpy_code. rewrite overlaps_false.
      * eexists. split; [reflexivity|]. intros q [<-|[]]. split; cbn [isrc idst].
        -- intros p Hp. apply span_In in Hp as (k & Hk & ->). rewrite Hd.
           apply (in_roi_px _ _ _ _ _ k (h - 1 - j) 0); [unfold inside; lia|reflexivity].
        -- intros p Hp. apply span_In in Hp as (k & Hk & ->). rewrite Hs.
           apply (in_roi_px _ _ _ _ _ k j 0); [unfold inside; lia|reflexivity].
      * intros i i' Hi Hi'. rewrite Hd, Hs. apply D; unfold inside; lia.
Qed.

Lemma emits_vnth v k (L : Z -> list instr -> code) (B : Z -> mem -> res mem mem) :
  (forall p, emits (L p) (B p)) ->
  emits (fun t => bind (vnth v k) (fun p => L p t)) (fun m => bind (vnth v k) (fun p => B p m)).
Proof.
  intros H t t' E. unfold vnth in *. destruct (_ && _); cbn [bind] in *; [|discriminate].
  destruct (H _ _ _ E) as (u & -> & Hu). exists u. auto.
Qed.

Lemma Resize_strip m inp xi yi wi hi out xo yo wo ho :
  wf m inp -> wf m out -> icc inp = icc out ->
  roi_in inp xi yi wi hi -> roi_in out xo yo wo ho ->
  (wo - 1) * wi < W32 -> (ho - 1) * hi < W32 ->
  disjoint out xo yo wo ho inp xi yi wi hi ->
  strip_ok (Resize_code inp xi yi wi hi out xo yo wo ho) (fun m => Resize m inp xi yi wi hi out xo yo wo ho)
    (in_roi out xo yo wo ho) (in_roi inp xi yi wi hi).
Proof.
  intros W1 Wo C1 R1 Ro Bw Bh D. roi_facts m.
  assert (Hw0 : 0 < wo) by apply Ro. assert (Hh0 : 0 < ho) by apply Ro.
  assert (Hwi : 0 < wi) by apply R1. assert (Hhi : 0 < hi) by apply R1.
  pose proof (wf_bounds _ _ W1) as (_ & _ & _ & B4).
  unfold Resize, Resize_code. rewrite (valid_roi_ok m inp), (valid_roi_ok m out) by assumption.
  rewrite C1.
  rewrite (row_ptr_origin m inp xi yi wi hi) by (auto; lia).
  rewrite (row_ptr_origin m out xo yo wo ho) by (auto; lia).
  rewrite (u32_width m out xo wo) by (auto; first [apply Ro|lia]).
  set (inX := fun idY => padd (origin inp xi yi (icc out)) (u32 (u32 (idY * hi) / ho * irs inp))).
  apply (walk_rows_strip ho _ [(0, 0)] _ [1]
    (fun cs t => let idY := snd (c1 cs) in
       if icc out =? 1 then
         walk (wo * icc out) [c0 cs; (0, 0)] [1; 1] (padd (c0 cs) (wo * icc out))
           (fun cs t => do p <- vnth (positionX wi wo (icc out)) (snd (c1 cs)); emit (mv (c0 cs) (padd (inX idY) p)) t) t
       else
         walk (wo * icc out) [c0 cs; (0, 0)] [icc out; 1] (padd (c0 cs) (wo * icc out))
           (fun cs t => do p <- vnth (positionX wi wo (icc out)) (snd (c1 cs)); memcpy_code (c0 cs) (padd (inX idY) p) (icc out) t) t)
    (fun cs m => let idY := snd (c1 cs) in
       if icc out =? 1 then
         walk (wo * icc out) [c0 cs; (0, 0)] [1; 1] (padd (c0 cs) (wo * icc out))
           (fun cs m => do p <- vnth (positionX wi wo (icc out)) (snd (c1 cs));
                        do a <- load m (padd (inX idY) p); store m (c0 cs) a) m
       else
         walk (wo * icc out) [c0 cs; (0, 0)] [icc out; 1] (padd (c0 cs) (wo * icc out))
           (fun cs m => do p <- vnth (positionX wi wo (icc out)) (snd (c1 cs)); memcpy m (c0 cs) (padd (inX idY) p) (icc out)) m));
    try reflexivity; try lia; auto.
  - intros cs. cbv zeta. destruct (icc out =? 1).
    + apply walk_emits. intros cs'.
      apply (emits_vnth _ _ (fun p => emit (mv (c0 cs') (padd (inX (snd (c1 cs))) p)))
               (fun p m => do a <- load m (padd (inX (snd (c1 cs))) p); store m (c0 cs') a)).
      intros p. apply emits_emit. intros m1. symmetry. apply run_mv.
    + apply walk_emits. intros cs'.
      apply (emits_vnth _ _ (fun p => memcpy_code (c0 cs') (padd (inX (snd (c1 cs))) p) (icc out))
               (fun p m => memcpy m (c0 cs') (padd (inX (snd (c1 cs))) p) (icc out))).
      intros p. apply emits_memcpy.
  - intros j t Hj. unfold at_, c0, c1. cbn [combine map nth fst snd padd]. rewrite Z.mul_1_r, Z.add_0_l.
    pose proof (scale_lt j hi ho ltac:(lia) Hhi) as Hsc.
    assert (HX : inX j = padd (origin inp xi yi (icc out)) (j * hi / ho * irs inp)).
    { unfold inX. rewrite (u32_small (j * hi)) by nia. rewrite u32_small by nia. reflexivity. }
    assert (Hpos : forall i, 0 <= i < wo -> u32 (u32 (i * wi) / wo * icc out) = i * wi / wo * icc out).
    { intros i Hi. pose proof (scale_lt i wi wo Hi Hwi). rewrite (u32_small (i * wi)) by nia.
      assert (wi <= iw inp) by (destruct R1; lia). rewrite u32_small by (rewrite C1 in B4; nia). reflexivity. }
    assert (Hsrc : forall i k, 0 <= i < wo -> 0 <= k < icc out ->
      padd (padd (inX j) (i * wi / wo * icc out)) k = px inp (xi + i * wi / wo) (yi + j * hi / ho) k).
    { intros i k Hi Hk. rewrite HX. unfold px, origin, padd. cbn [fst snd]. rewrite C1. f_equal. ring. }
    assert (Hdst : forall i k, padd (padd (padd (origin out xo yo (icc out)) (j * irs out)) (i * icc out)) k
                             = px out (xo + i) (yo + j) k).
    { intros i k. unfold px, origin, padd. cbn [fst snd]. f_equal. ring. }
    destruct (Z.eqb_spec (icc out) 1) as [E1|E1].
    + erewrite (walk_iterM wo) by (try reflexivity; try lia; rewrite E1; f_equal; lia).
      apply iterM_emit. intros i t1 Hi. unfold at_. cbn [combine map nth fst snd padd].
      rewrite Z.add_0_l, !Z.mul_1_r. rewrite positionX_nth by lia. cbn [bind].
      rewrite Hpos by lia.
      eexists. split; [reflexivity|]. intros q [<-|[]]. split; unfold mv; cbn [isrc idst].
      * intros p [<-|[]]. apply (in_roi_px _ _ _ _ _ i j 0); [unfold inside; lia|].
        rewrite <- Hdst. unfold padd. cbn [fst snd]. rewrite E1. f_equal. ring.
      * intros p [<-|[]]. rewrite <- (padd_0 (padd (inX j) _)). rewrite Hsrc by lia.
        pose proof (scale_lt i wi wo ltac:(lia) Hwi).
        apply (in_roi_px _ _ _ _ _ (i * wi / wo) (j * hi / ho) 0); [unfold inside; lia|reflexivity].
    + erewrite (walk_iterM wo) by (try reflexivity; try lia; try nia; f_equal; lia).
      apply iterM_emit. intros i t1 Hi. unfold at_. cbn [combine map nth fst snd padd].
      rewrite Z.add_0_l, !Z.mul_1_r. rewrite positionX_nth by lia. cbn [bind].
      rewrite Hpos by lia. pose proof (scale_lt i wi wo ltac:(lia) Hwi).
      replace (fst (padd (origin out xo yo (icc out)) (j * irs out)), snd (padd (origin out xo yo (icc out)) (j * irs out)) + i * icc out)
        with (padd (padd (origin out xo yo (icc out)) (j * irs out)) (i * icc out)) by reflexivity.
      unfold memcpy_code.
      match goal with |- exists u, (if overlaps ?a ?b ?c then _ else _) = _ /\ _ => assert (Hov : overlaps a b c = false) end.
      { apply overlaps_false. intros k k' Hk Hk'.
        replace (padd _ k) with (px out (xo + i) (yo + j) k) by (rewrite <- Hdst; reflexivity).
        rewrite Hsrc by lia. apply D; unfold inside; lia. }
      rewrite Hov. eexists. split; [reflexivity|]. intros q [<-|[]]. split; cbn [isrc idst].
      * intros p Hp. apply span_In in Hp as (k & Hk & ->).
        apply (in_roi_px _ _ _ _ _ i j k); [unfold inside; lia|]. rewrite <- Hdst. reflexivity.
      * intros p Hp. apply span_In in Hp as (k & Hk & ->). rewrite Hsrc by lia.
        apply (in_roi_px _ _ _ _ _ (i * wi / wo) (j * hi / ho) k); [unfold inside; lia|reflexivity].
Qed.
