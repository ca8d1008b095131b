(** Properties C182 to C184: the pictures the windows show. *)
From Coq Require Import ZArith List Bool Lia.
From Verif Require Import Base Image Spec BaseProofs ImgFun ImgLemmas ImgProofs ReduceProofs PropsA Window.
Import ListNotations.
Open Scope Z_scope.
Ltac Zify.zify_post_hook ::= idtac.

(** ** Loops that fill one block *)

(** Only block [b] may differ. *)
Definition frame (b : Z) (m m' : mem) : Prop := (forall b', b' <> b -> m' b' = m b') /\ len m' b = len m b.
Lemma frame_refl b m : frame b m m.
Proof. split; reflexivity. Qed.
Lemma frame_trans b m m' m'' : frame b m m' -> frame b m' m'' -> frame b m m''.
Proof. intros [A B] [C D]. split; [|congruence]. intros b' Hb. rewrite C, A by assumption. reflexivity. Qed.
Lemma frame_upd b m o v : frame b m (upd m (b, o) v).
Proof.
  split; [|apply len_upd]. intros b' Hb. unfold upd. cbn [fst]. destruct (Z.eqb_spec b' b); [contradiction|reflexivity].
Qed.
Lemma frame_len b m m' : frame b m m' -> same_len m m'.
Proof. intros [A B] b'. destruct (Z.eq_dec b' b) as [->|N]; [exact B|]. unfold len. rewrite A by assumption. reflexivity. Qed.
Lemma frame_get b m m' p : frame b m m' -> fst p <> b -> get m' p = get m p.
Proof. intros [A _] N. unfold get. rewrite A by assumption. reflexivity. Qed.
Lemma frame_inb b m m' p : frame b m m' -> inb m' p = inb m p.
Proof. intros F. unfold inb. rewrite (frame_len _ _ _ F). reflexivity. Qed.

(** What one step and what a loop leaves in block [b]. *)
Definition fills (b lo c : Z) (val : Z -> Z) (m m' : mem) : Prop :=
  frame b m m' /\ (forall d, 0 <= d < c -> get m' (b, lo + d) = val d) /\
  forall o, ~ (lo <= o < lo + c) -> get m' (b, o) = get m (b, o).

Lemma sweep b c N off val (g : Z -> mem -> res mem mem) m0 : 0 <= N ->
  (forall j k, 0 <= j < k -> k < N -> off j + c <= off k) ->
  (forall k m', 0 <= k < N -> frame b m0 m' -> exists m'', g k m' = Ok m'' /\ fills b (off k) c (val k) m' m'') ->
  exists M, iterM (Z.to_nat N) 0 g m0 = Ok M /\ frame b m0 M /\
    (forall k d, 0 <= k < N -> 0 <= d < c -> get M (b, off k + d) = val k d) /\
    (forall o, (forall k, 0 <= k < N -> ~ (off k <= o < off k + c)) -> get M (b, o) = get m0 (b, o)).
Proof.
  intros HN Hm Hs.
  destruct (iterM_inv (fun n m => frame b m0 m /\ (forall k d, 0 <= k < n -> 0 <= d < c -> get m (b, off k + d) = val k d) /\
    (forall o, (forall k, 0 <= k < n -> ~ (off k <= o < off k + c)) -> get m (b, o) = get m0 (b, o))) g (Z.to_nat N) 0 m0) as (M & E & P).
  - split; [apply frame_refl|]. split; [intros; lia|reflexivity].
  - intros k m Hk (F & V & O). destruct (Hs k m ltac:(lia) F) as (m'' & E & F' & V' & O'). exists m''. split; [exact E|].
    split; [eapply frame_trans; eassumption|]. split.
    + intros j d Hj Hd. destruct (Z.eq_dec j k) as [->|N']; [apply V', Hd|].
      pose proof (Hm j k ltac:(lia) ltac:(lia)). rewrite O' by lia. apply V; lia.
    + intros o Ho. rewrite O' by (apply Ho; lia). apply O. intros j Hj. apply Ho. lia.
  - exists M. split; [exact E|]. rewrite Z2Nat.id, Z.add_0_l in P by lia. exact P.
Qed.

Lemma sweep2 b c W H off val (g : Z -> Z -> mem -> res mem mem) m0 : 0 <= W -> 0 <= H ->
  (forall y x y' x', 0 <= y < H -> 0 <= y' < H -> 0 <= x < W -> 0 <= x' < W -> y < y' \/ (y = y' /\ x < x') -> off y x + c <= off y' x') ->
  (forall y x m', 0 <= y < H -> 0 <= x < W -> frame b m0 m' -> exists m'', g y x m' = Ok m'' /\ fills b (off y x) c (val y x) m' m'') ->
  exists M, iterM (Z.to_nat H) 0 (fun y => iterM (Z.to_nat W) 0 (g y)) m0 = Ok M /\ frame b m0 M /\
    (forall y x d, 0 <= y < H -> 0 <= x < W -> 0 <= d < c -> get M (b, off y x + d) = val y x d) /\
    (forall o, (forall y x, 0 <= y < H -> 0 <= x < W -> ~ (off y x <= o < off y x + c)) -> get M (b, o) = get m0 (b, o)).
Proof.
  intros HW HH Hm Hs.
  destruct (iterM_inv (fun n m => frame b m0 m /\
    (forall y x d, 0 <= y < n -> 0 <= x < W -> 0 <= d < c -> get m (b, off y x + d) = val y x d) /\
    (forall o, (forall y x, 0 <= y < n -> 0 <= x < W -> ~ (off y x <= o < off y x + c)) -> get m (b, o) = get m0 (b, o)))
    (fun y => iterM (Z.to_nat W) 0 (g y)) (Z.to_nat H) 0 m0) as (M & E & P).
  - split; [apply frame_refl|]. split; [intros; lia|reflexivity].
  - intros y m Hy (F & V & O).
    destruct (sweep b c W (off y) (val y) (g y) m HW) as (m'' & E & F' & V' & O').
    { intros j k Hj Hk. apply Hm; lia. }
    { intros k m' Hk F'. apply Hs; [lia|lia|]. eapply frame_trans; eassumption. }
    exists m''. split; [exact E|]. split; [eapply frame_trans; eassumption|]. split.
    + intros y' x d Hy' Hx Hd. destruct (Z.eq_dec y' y) as [->|N']; [apply V'; assumption|].
      rewrite O'; [apply V; lia|]. intros k Hk. pose proof (Hm y' x y k ltac:(lia) ltac:(lia) Hx Hk ltac:(lia)). lia.
    + intros o Ho. rewrite O' by (intros k Hk; apply Ho; lia). apply O. intros y' x Hy' Hx. apply Ho; lia.
  - exists M. split; [exact E|]. rewrite Z2Nat.id, Z.add_0_l in P by lia. exact P.
Qed.

Lemma copy_bytes_ok b n src dst m : 0 <= n -> fst src <> b -> fst dst = b ->
  (forall c, 0 <= c < n -> inb m (padd src c) = true /\ inb m (padd dst c) = true) ->
  exists m', copy_bytes n src dst m = Ok m' /\ fills b (snd dst) n (fun c => get m (padd src c)) m m'.
Proof.
  intros Hn Hs Hd Hi. unfold copy_bytes.
  destruct (sweep b 1 n (fun k => snd dst + k) (fun k _ => get m (padd src k))
    (fun c m => do v <- load m (padd src c); store m (padd dst c) v) m Hn) as (M & E & F & V & O).
  - intros j k Hj Hk. lia.
  - intros k m' Hk F. destruct (Hi k Hk) as [I1 I2]. rewrite <- (frame_inb _ _ _ _ F) in I1. rewrite <- (frame_inb _ _ _ _ F) in I2.
    rewrite (load_ok m' _ I1). cbn [bind]. rewrite (store_ok m' _ _ I2). eexists. split; [reflexivity|].
    assert (P : padd dst k = (b, snd dst + k)) by (unfold padd; rewrite Hd; reflexivity). rewrite P. split; [apply frame_upd|]. split.
    + intros d Hd'. replace (snd dst + k + d) with (snd dst + k) by lia. rewrite get_upd_same.
      apply (frame_get b); [exact F|]. exact Hs.
    + intros o Ho. apply get_upd_other. intros Eo. apply (f_equal snd) in Eo. cbn [snd] in Eo. lia.
  - exists M. split; [exact E|]. split; [exact F|]. split.
    + intros d Hd'. specialize (V d 0 Hd' ltac:(lia)). rewrite Z.add_0_r in V. exact V.
    + intros o Ho. apply O. intros k Hk. lia.
Qed.

(** ** C182: the picture of an X11 window *)
Definition shows (m : mem) (im : image) (b : Z) (M : mem) : Prop :=
  len M b = 4 * (iw im * ih im) /\
  (forall x y, 0 <= x < iw im -> 0 <= y < ih im ->
     (forall c, 0 <= c < 3 -> get M (b, 4 * (y * iw im + x) + c) = pixel m im x y (if icc im =? 1 then 0 else c)) /\
     get M (b, 4 * (y * iw im + x) + 3) = 0) /\
  forall b', b' <> b -> M b' = m b'.
Definition C182_claim : Prop := forall m im b, wf m im -> icc im = 1 \/ icc im = 3 -> b <> fst (ibase im) ->
  exists M, x11_setupImage m im b = Ok (M, true) /\ shows m im b M.
Theorem C182_x11_partial m im b : wf m im -> icc im = 1 \/ icc im = 3 -> b <> fst (ibase im) -> 4 * (iw im * ih im) < W32 ->
  exists M, x11_setupImage m im b = Ok (M, true) /\ shows m im b M.
Proof.
  intros Wi Hc Hb Hsz. pose proof (wf_bounds _ _ Wi) as (B1 & B2 & _). destruct Wi as [Wd Ww Wh _ Wr Ws Wl Whi].
  unfold x11_setupImage. destruct (idata im) as [p|] eqn:Ed; [|contradiction].
  assert (Ep : ibase im = p) by (unfold ibase; rewrite Ed; reflexivity). rewrite Ep in *.
  cbv zeta. set (m1 := fun b' : Z => if b' =? b then _ else m b').
  assert (L1 : len m1 b = 4 * (iw im * ih im)).
  { unfold len, m1. rewrite Z.eqb_refl. cbn [blen]. rewrite (u32_small (iw im * ih im)), u32_small by nia. ring. }
  assert (O1 : forall b', b' <> b -> m1 b' = m b').
  { intros b' N. unfold m1. destruct (Z.eqb_spec b' b); [contradiction|reflexivity]. }
  assert (Hoff : forall y x y' x', 0 <= y < ih im -> 0 <= y' < ih im -> 0 <= x < iw im -> 0 <= x' < iw im ->
    y < y' \/ (y = y' /\ x < x') -> 4 * (y * iw im + x) + 4 <= 4 * (y' * iw im + x')) by (intros; nia).
  assert (Dst : forall m' x y c, frame b m1 m' -> 0 <= y < ih im -> 0 <= x < iw im -> 0 <= c < 4 ->
    inb m' (b, 4 * (y * iw im + x) + c) = true).
  { intros m' x y c F Hy Hx Hd. rewrite (frame_inb _ _ _ _ F). apply inb_iff. cbn [fst snd]. rewrite L1. nia. }
  assert (Src : forall m' x y c, frame b m1 m' -> 0 <= y < ih im -> 0 <= x < iw im -> 0 <= c < icc im ->
    inb m' (padd p (y * irs im + icc im * x + c)) = true).
  { intros m' x y c F Hy Hx Hd. rewrite (frame_inb _ _ _ _ F). apply inb_iff. unfold padd. cbn [fst snd].
    unfold len. rewrite O1 by congruence. change (blen (m (fst p))) with (len m (fst p)). nia. }
  assert (Get : forall m' x y c, frame b m1 m' -> get m' (padd p (y * irs im + icc im * x + c)) = pixel m im x y c).
  { intros m' x y c F. rewrite (frame_get b m1 m') by (exact F || (cbn [padd fst]; congruence)).
    unfold get, pixel. cbn [padd fst]. rewrite O1 by congruence. unfold get, px. rewrite Ep. cbn [fst snd].
    f_equal. unfold padd. cbn [snd]. ring. }
  assert (G : forall g : Z -> Z -> mem -> res mem mem,
    (forall y x m', 0 <= y < ih im -> 0 <= x < iw im -> frame b m1 m' -> exists m'', g y x m' = Ok m'' /\
       fills b (4 * (y * iw im + x)) 4 (fun d => if d =? 3 then 0 else pixel m im x y (if icc im =? 1 then 0 else d)) m' m'') ->
    exists M, (do m2 <- iterM (Z.to_nat (ih im)) 0 (fun y => iterM (Z.to_nat (iw im)) 0 (g y)) m1; @Ok mem _ (m2, true)) = Ok (M, true) /\ shows m im b M).
  { intros g Hg. destruct (sweep2 b 4 (iw im) (ih im) (fun y x => 4 * (y * iw im + x)) _ g m1 ltac:(lia) ltac:(lia) Hoff Hg) as (M & E & F & V & _).
    exists M. rewrite E. split; [reflexivity|]. split; [rewrite (frame_len _ _ _ F); exact L1|]. split.
    - intros x y Hx Hy. split.
      + intros c Hc'. rewrite (V y x c Hy Hx ltac:(lia)). destruct (Z.eqb_spec c 3); [lia|reflexivity].
      + rewrite (V y x 3 Hy Hx ltac:(lia)). reflexivity.
    - intros b' N. rewrite (proj1 F b' N). apply O1, N. }
  destruct Hc as [Hc|Hc]; rewrite Hc in *.
  - cbn [Z.eqb Pos.eqb] in G |- *. apply G. intros y x m' Hy Hx F. unfold gray_pixel.
    pose proof (Src m' x y 0 F Hy Hx ltac:(lia)) as I. pose proof (Get m' x y 0 F) as Gt.
    replace (y * irs im + 1 * x + 0) with (y * irs im + x) in I, Gt by ring.
    rewrite (load_ok m' _ I). cbn [bind]. rewrite Gt. set (v := pixel m im x y 0) in *. set (o := 4 * (y * iw im + x)) in *.
    assert (D : forall c, 0 <= c < 4 -> inb m' (b, o + c) = true) by (intros c Hc'; apply Dst; assumption).
    pose proof (D 0 ltac:(lia)) as D0. rewrite Z.add_0_r in D0. unfold padd. cbn [fst snd].
    rewrite store_ok by exact D0. cbn [bind]. rewrite store_ok by (rewrite ?inb_upd; apply D; lia). cbn [bind].
    rewrite store_ok by (rewrite ?inb_upd; apply D; lia). cbn [bind]. rewrite store_ok by (rewrite ?inb_upd; apply D; lia).
    eexists. split; [reflexivity|]. split; [repeat (eapply frame_trans; [|apply frame_upd]); apply frame_refl|].
    assert (Q : forall a d, a <> d -> (b, o + a) <> (b, o + d)) by (intros a d Nad E; apply (f_equal snd) in E; cbn [snd] in E; lia).
    assert (Q0 : forall a, a <> 0 -> (b, o + a) <> (b, o)) by (intros a Na E; apply (f_equal snd) in E; cbn [snd] in E; lia).
    split.
    + intros d Hd. assert (C : d = 0 \/ d = 1 \/ d = 2 \/ d = 3) by lia. destruct C as [->|[->|[->| ->]]]; cbn [Z.eqb Pos.eqb].
      * rewrite Z.add_0_r. rewrite !get_upd_other by (intros E; apply (f_equal snd) in E; cbn [snd] in E; lia). apply get_upd_same.
      * rewrite !get_upd_other by (intros E; apply (f_equal snd) in E; cbn [snd] in E; lia). apply get_upd_same.
      * rewrite get_upd_other by (intros E; apply (f_equal snd) in E; cbn [snd] in E; lia). apply get_upd_same.
      * apply get_upd_same.
    + intros q Hq. rewrite !get_upd_other by (intros E; apply (f_equal snd) in E; cbn [snd] in E; lia). reflexivity.
  - cbn [Z.eqb Pos.eqb] in G |- *. apply G. intros y x m' Hy Hx F. unfold rgb_pixel.
    set (o := 4 * (y * iw im + x)) in *.
    destruct (copy_bytes_ok b 3 (padd p (y * irs im + 3 * x)) (b, o) m') as (m2 & E & F2 & V2 & O2);
      [lia|cbn [padd fst]; congruence|reflexivity| |].
    { intros c Hc'. split; [|apply Dst; (assumption || lia)].
      replace (padd (padd p (y * irs im + 3 * x)) c) with (padd p (y * irs im + 3 * x + c)) by (unfold padd; cbn [fst snd]; f_equal; ring).
      apply Src; assumption. }
    rewrite E. cbn [bind]. rewrite store_ok by (rewrite (frame_inb _ _ _ _ F2); apply Dst; (assumption || lia)).
    eexists. split; [reflexivity|]. split; [eapply frame_trans; [exact F2|apply frame_upd]|]. unfold padd. cbn [fst snd] in *. split.
    + intros d Hd. destruct (Z.eqb_spec d 3) as [->|N]; [apply get_upd_same|].
      rewrite get_upd_other by (intros E'; apply (f_equal snd) in E'; cbn [snd] in E'; lia).
      rewrite V2 by lia. rewrite <- (Get m' x y d F). unfold padd. cbn [fst snd]. f_equal. f_equal. ring.
    + intros q Hq. rewrite get_upd_other by (intros E'; apply (f_equal snd) in E'; cbn [snd] in E'; lia). apply O2. lia.
Qed.
Example C182_case : (exists M, x11_setupImage emem (img 1 5 4 3 16) 7 = Ok (M, true) /\ shows emem (img 1 5 4 3 16) 7 M) /\
  (match x11_setupImage emem (img 1 2 2 1 3) 7 with Ok (M, true) => map (fun o => get M (7, o)) [0; 1; 2; 3; 4; 8] | _ => [] end =
   let v x y := pixel emem (img 1 2 2 1 3) x y 0 in [v 0 0; v 0 0; v 0 0; 0; v 1 0; v 0 1]).
Proof.
  split; [|vm_compute; reflexivity].
  apply C182_x11_partial; [solve_wf|right; reflexivity|cbn; lia|rewrite W32_val; cbn; lia].
Qed.
(** An image with an alpha channel is refused; an empty one makes no picture. *)
Theorem C182_others m im b :
  (idata im = None -> x11_setupImage m im b = Ok (m, false)) /\
  (idata im <> None -> icc im <> 1 -> icc im <> 3 -> x11_setupImage m im b = Throw m).
Proof.
  unfold x11_setupImage. split; [intros ->; reflexivity|]. destruct (idata im); [|contradiction]. intros _ N1 N3. cbv zeta.
  destruct (Z.eqb_spec (icc im) 1); [contradiction|]. destruct (Z.eqb_spec (icc im) 3); [contradiction|]. reflexivity.
Qed.
(** 32768 x 32768 pixels: the size of the vector wraps to 0. *)
Definition grey30 : mem := fun _ => mkBlock 1073741824 (fun _ => 0).
Theorem C182_size_refuted : ~ C182_claim.
Proof.
  intros H. destruct (H grey30 (img 1 32768 32768 1 32768) 7) as (M & E & _).
  - constructor; cbn; unfold W32; try lia; [discriminate].
  - left. reflexivity.
  - cbn. lia.
  - revert E. unfold x11_setupImage. cbn [img idata iw ih icc irs Z.eqb Pos.eqb]. cbv zeta.
    destruct (Z.to_nat 32768) as [|n] eqn:En; [lia|]. cbn [iterM]. unfold gray_pixel at 1.
    match goal with |- context [load ?mm ?pp] => destruct (load (E := mem) mm pp) eqn:El; cbn [bind]; try discriminate end.
Qed.

(** ** C183: an X11 window after setImage *)

(** ui.h: setImage "replaces existing shown image by new image" *)
Definition C183_claim : Prop := forall (I P : Type) (picture : I -> P) i l,
  x11_display (x11_after picture i l) = picture (last l i).
(** What it shows is the picture of the constructor, whatever was set since. *)
Theorem C183_x11_shows_first_partial (I P : Type) (picture : I -> P) i l :
  x11_display (x11_after picture i l) = picture i /\ x_base (x11_after picture i l) = last l i.
Proof.
  induction l as [|j l IH] using rev_ind; [split; reflexivity|]. destruct IH as [A B].
  unfold x11_after in *. rewrite fold_left_app. cbn [fold_left]. rewrite last_last. split; [exact A|reflexivity].
Qed.
Example C183_case : x11_display (x11_after Z.succ 5 [7; 9]) = 6 /\ x_base (x11_after Z.succ 5 [7; 9]) = 9.
Proof. split; reflexivity. Qed.
Theorem C183_x11_refuted : ~ C183_claim.
Proof. intros H. specialize (H Z Z Z.succ 5 [7; 9]). discriminate. Qed.

(** ** C184: the copy a window of Windows keeps *)
Definition other (m : mem) (im out : image) : Prop := wf m im /\ wf m out /\ icc im = icc out /\ fst (ibase im) <> fst (ibase out).
(** Every pixel of [out] is [v]'s; nothing else changes. *)
Definition redrawn (m M : mem) (out : image) (v : Z -> Z -> Z -> Z) : Prop :=
  (forall x y c, 0 <= x < iw out -> 0 <= y < ih out -> 0 <= c < icc out -> pixel M out x y c = v x y c) /\
  (forall b', b' <> fst (ibase out) -> M b' = m b') /\ len M (fst (ibase out)) = len m (fst (ibase out)) /\
  forall o, (forall x y c, 0 <= x < iw out -> 0 <= y < ih out -> 0 <= c < icc out -> o <> snd (ibase out) + y * irs out + x * icc out + c) ->
    get M (fst (ibase out), o) = get m (fst (ibase out), o).

Lemma inb_pixel m im x y c : wf m im -> 0 <= x < iw im -> 0 <= y < ih im -> 0 <= c < icc im ->
  inb m (padd (ibase im) (y * irs im + x * icc im + c)) = true.
Proof.
  intros Wi Hx Hy Hc. pose proof (wf_bounds _ _ Wi) as B. destruct Wi as [Wd Ww Wh Wc Wr Ws Wl Whi].
  apply inb_iff. unfold padd. cbn [fst snd]. nia.
Qed.
Lemma get_pixel m im x y c : get m (padd (ibase im) (y * irs im + x * icc im + c)) = pixel m im x y c.
Proof. unfold pixel, px, get, padd. cbn [fst snd]. f_equal. ring. Qed.

Lemma data_base im : idata im <> None -> dataptr im = ibase im.
Proof. unfold dataptr, ibase. destruct (idata im); [reflexivity|contradiction]. Qed.

Theorem C184_unscaled m im out : other m im out -> iw out = iw im -> ih out = ih im ->
  exists M, win_copy m im out = Ok M /\ redrawn m M out (fun x y c => pixel m im x (ih im - 1 - y) c).
Proof.
  intros (Wi & Wo & Hcc & Hb) Hw Hh. pose proof (wf_bounds _ _ Wi) as Bi. pose proof (wf_bounds _ _ Wo) as Bo.
  assert (Ui : u32 (iw im * icc im) = iw im * icc im).
  { apply u32_small. destruct Wi. nia. }
  assert (Uh : u32 (irs im * u32 (ih im - 1)) = irs im * (ih im - 1)).
  { rewrite (u32_small (ih im - 1)) by (destruct Wi; lia). apply u32_small. destruct Wi. nia. }
  assert (Wc : 1 <= icc im) by (destruct Wi; lia).
  assert (Ww : 1 <= iw im) by (destruct Wi; lia). assert (Wh : 1 <= ih im) by (destruct Wi; lia).
  assert (Wr : icc out * iw out <= irs out) by (destruct Wo; nia).
  assert (Ei : dataptr im = ibase im) by (apply data_base, Wi). assert (Eo : dataptr out = ibase out) by (apply data_base, Wo).
  unfold win_copy. rewrite Ui, Uh, Ei, Eo. set (bo := fst (ibase out)) in *.
  set (N := iw im * icc im) in *.
  assert (Pos : forall o, 0 <= o < N -> exists x c, 0 <= x < iw im /\ 0 <= c < icc im /\ o = x * icc im + c).
  { intros o Ho. exists (o / icc im), (o mod icc im). pose proof (Z.div_mod o (icc im) ltac:(lia)). pose proof (Z.mod_pos_bound o (icc im) ltac:(lia)).
    split; [|split; [lia|nia]]. split; [apply Z.div_pos; lia|]. apply Z.div_lt_upper_bound; unfold N in *; nia. }
  destruct (sweep bo N (ih im) (fun y => snd (ibase out) + y * irs out)
    (fun y o => get m (padd (ibase im) ((ih im - 1 - y) * irs im + o)))
    (fun y => copy_bytes N (padd (ibase im) (irs im * (ih im - 1) - y * irs im)) (padd (ibase out) (y * irs out))) m ltac:(lia))
    as (M & E & F & V & O).
  { intros j k Hj Hk. unfold N. rewrite Hw in Wr. nia. }
  { intros y m' Hy F.
    destruct (copy_bytes_ok bo N (padd (ibase im) (irs im * (ih im - 1) - y * irs im)) (padd (ibase out) (y * irs out)) m') as (m'' & E & G).
    - unfold N. nia.
    - cbn [padd fst]. exact Hb.
    - reflexivity.
    - intros o Ho. rewrite !(frame_inb _ _ _ _ F). destruct (Pos o Ho) as (x & c & Hx & Hc & Eq). split.
      + pose proof (inb_pixel m im x (ih im - 1 - y) c Wi Hx ltac:(lia) Hc) as I. revert I.
        unfold padd. cbn [fst snd]. intros I. rewrite <- I. f_equal. f_equal. rewrite Eq. ring.
      + pose proof (inb_pixel m out x y c Wo ltac:(lia) ltac:(lia) ltac:(lia)) as I. revert I.
        unfold padd. cbn [fst snd]. intros I. rewrite <- I. f_equal. f_equal. rewrite Eq, <- Hcc. ring.
    - exists m''. split; [exact E|]. destruct G as (G1 & G2 & G3). cbn [padd snd] in G2, G3. split; [exact G1|]. split; [|exact G3].
      intros o Ho. rewrite G2 by exact Ho. rewrite (frame_get bo m m') by (exact F || exact Hb).
      unfold padd. cbn [fst snd]. f_equal. f_equal. ring. }
  exists M. split; [exact E|]. split; [|split; [exact (proj1 F)|split; [exact (proj2 F)|]]].
  - intros x y c Hx Hy Hc. rewrite <- (get_pixel M), <- (get_pixel m).
    assert (Ho : 0 <= x * icc im + c < N) by (unfold N; nia).
    pose proof (V y (x * icc im + c) ltac:(lia) Ho) as V'. cbv beta in V'. revert V'. unfold padd. cbn [fst snd]. fold bo. intros V'.
    replace (snd (ibase out) + (y * irs out + x * icc out + c)) with (snd (ibase out) + y * irs out + (x * icc im + c)) by (rewrite <- Hcc; ring).
    rewrite V'. f_equal. f_equal. ring.
  - intros o Ho. apply O. intros y Hy Hoy. destruct (Pos (o - (snd (ibase out) + y * irs out)) ltac:(lia)) as (x & c & Hx & Hc & Eq).
    apply (Ho x y c); [lia|lia|lia|]. rewrite <- Hcc. lia.
Qed.

(** The pixel the scaled copy takes, with the arithmetic of uint32_t. *)

(** The pixel the scaled copy takes, with the arithmetic of uint32_t. *)
Theorem C184_scaled_wrapped m im out : other m im out ->
  exists M, win_copy_scaled m im out = Ok M /\
    redrawn m M out (fun x y c => pixel m im (u32 (x * iw im) / iw out) (ih im - 1 - u32 (y * ih im) / ih out) c).
Proof.
  intros (Wi & Wo & Hcc & Hb). pose proof (wf_bounds _ _ Wi) as Bi. pose proof (wf_bounds _ _ Wo) as Bo.
  assert (Wc : 1 <= icc im) by (destruct Wi; lia).
  assert (Ww : 1 <= iw im) by (destruct Wi; lia). assert (Wh : 1 <= ih im) by (destruct Wi; lia).
  assert (Vw : 1 <= iw out) by (destruct Wo; lia). assert (Vh : 1 <= ih out) by (destruct Wo; lia).
  assert (Wri : iw im * icc im <= irs im) by (destruct Wi; nia). assert (Wsi : ih im * irs im < W32) by (destruct Wi; nia).
  assert (Wro : iw out * icc out <= irs out) by (destruct Wo; nia).
  assert (Ei : dataptr im = ibase im) by (apply data_base, Wi). assert (Eo : dataptr out = ibase out) by (apply data_base, Wo).
  assert (Sc : forall t a b, 0 <= t < b -> 0 < a -> 0 <= u32 (t * a) / b < a).
  { intros t a b Ht Ha. assert (0 <= u32 (t * a) <= t * a) by (unfold u32; split; [apply Z.mod_pos_bound; reflexivity|apply Z.mod_le; [nia|reflexivity]]).
    split; [apply Z.div_pos; lia|]. apply Z.div_lt_upper_bound; nia. }
  unfold win_copy_scaled. rewrite Ei, Eo. set (bo := fst (ibase out)) in *.
  assert (Row : forall y, 0 <= y < ih out ->
    u32 (u32 (u32 (ih im - 1) - u32 (y * ih im) / ih out) * irs im) = (ih im - 1 - u32 (y * ih im) / ih out) * irs im).
  { intros y Hy. pose proof (Sc y (ih im) (ih out) Hy ltac:(lia)) as S.
    rewrite (u32_small (ih im - 1)) by nia. rewrite (u32_small (ih im - 1 - _)) by nia. apply u32_small. nia. }
  assert (Col : forall x, 0 <= x < iw out -> positionX im out x = u32 (x * iw im) / iw out * icc im).
  { intros x Hx. pose proof (Sc x (iw im) (iw out) Hx ltac:(lia)) as S. unfold positionX. apply u32_small. nia. }
  destruct (sweep2 bo (icc im) (iw out) (ih out) (fun y x => snd (ibase out) + y * irs out + x * icc out)
    (fun y x c => pixel m im (u32 (x * iw im) / iw out) (ih im - 1 - u32 (y * ih im) / ih out) c)
    (fun y x => copy_bytes (icc im)
        (padd (padd (ibase im) (u32 (u32 (u32 (ih im - 1) - u32 (y * ih im) / ih out) * irs im))) (positionX im out x))
        (padd (ibase out) (y * irs out + x * icc im))) m ltac:(lia) ltac:(lia)) as (M & E & F & V & O).
  { intros y x y' x' Hy Hy' Hx Hx' [L|[-> L]]; rewrite <- Hcc in *; [|nia].
    assert (y * irs out + irs out <= y' * irs out) by nia. assert (x * icc im + icc im <= iw out * icc im) by (replace (x * icc im + icc im) with ((x + 1) * icc im) by ring; apply Z.mul_le_mono_nonneg_r; lia).
    assert (0 <= x' * icc im) by nia. lia. }
  { intros y x m' Hy Hx F. rewrite (Row y Hy), (Col x Hx).
    pose proof (Sc y (ih im) (ih out) Hy ltac:(lia)) as Sy. pose proof (Sc x (iw im) (iw out) Hx ltac:(lia)) as Sx.
    set (r := ih im - 1 - u32 (y * ih im) / ih out) in *. set (q := u32 (x * iw im) / iw out) in *.
    assert (Hr : 0 <= r < ih im) by (unfold r; lia).
    assert (P : forall c, padd (padd (padd (ibase im) (r * irs im)) (q * icc im)) c = padd (ibase im) (r * irs im + q * icc im + c)).
    { intros c. unfold padd. cbn [fst snd]. f_equal. ring. }
    destruct (copy_bytes_ok bo (icc im) (padd (padd (ibase im) (r * irs im)) (q * icc im)) (padd (ibase out) (y * irs out + x * icc im)) m')
      as (m'' & E & G1 & G2 & G3).
    - lia.
    - exact Hb.
    - reflexivity.
    - intros c Hc. rewrite !(frame_inb _ _ _ _ F), P. split; [apply inb_pixel; assumption|].
      pose proof (inb_pixel m out x y c Wo Hx Hy ltac:(lia)) as I. revert I. unfold padd. cbn [fst snd]. rewrite Hcc. intros I.
      rewrite <- I. f_equal. f_equal. ring.
    - exists m''. split; [exact E|]. cbn [padd snd] in G2, G3. rewrite Hcc in G2, G3.
      replace (snd (ibase out) + (y * irs out + x * icc out)) with (snd (ibase out) + y * irs out + x * icc out) in G2, G3 by ring.
      split; [exact G1|]. split; [|rewrite Hcc; exact G3].
      intros c Hc. rewrite G2 by lia. rewrite <- Hcc, P. rewrite (frame_get bo m m') by (exact F || exact Hb). apply get_pixel. }
  exists M. split; [exact E|]. split; [|split; [exact (proj1 F)|split; [exact (proj2 F)|]]].
  - intros x y c Hx Hy Hc. rewrite <- (V y x c Hy Hx ltac:(lia)). unfold pixel, px. reflexivity.
  - intros o Ho. apply O. intros y x Hy Hx Hoy.
    apply (Ho x y (o - (snd (ibase out) + y * irs out + x * icc out))); [lia|lia|lia|lia].
Qed.

(** The nearest pixel to the lower left, the image upside down. *)
Definition C184_claim : Prop := forall m im out, other m im out ->
  exists M, win_copy_scaled m im out = Ok M /\
    redrawn m M out (fun x y c => pixel m im (x * iw im / iw out) (ih im - 1 - y * ih im / ih out) c).
Theorem C184_scaled_partial m im out : other m im out -> iw out * iw im <= W32 -> ih out * ih im <= W32 ->
  exists M, win_copy_scaled m im out = Ok M /\
    redrawn m M out (fun x y c => pixel m im (x * iw im / iw out) (ih im - 1 - y * ih im / ih out) c).
Proof.
  intros H Hw Hh. destruct (C184_scaled_wrapped m im out H) as (M & E & V & R). exists M. split; [exact E|]. split; [|exact R].
  destruct H as (Wi & Wo & _). intros x y c Hx Hy Hc. rewrite V by assumption.
  rewrite (u32_small (x * iw im)), (u32_small (y * ih im)) by (destruct Wi; nia). reflexivity.
Qed.
Definition ramp : mem := fun _ => mkBlock 100000 (fun o => o).
Example C184_case : other emem (img 1 4 3 3 12) (img 2 4 3 3 16) /\ other emem (img 1 7 5 1 7) (img 2 3 2 1 4) /\
  (match win_copy_scaled ramp (img 1 6 4 1 8) (img 2 3 2 1 4) with
   | Ok M => map (fun p => pixel M (img 2 3 2 1 4) (fst p) (snd p) 0) [(0, 0); (1, 0); (2, 0); (0, 1); (2, 1)] | _ => [] end
   = [24; 26; 28; 8; 12]).
Proof. split; [|split; [|vm_compute; reflexivity]]; (split; [solve_wf|split; [solve_wf|split; [reflexivity|cbn; lia]]]). Qed.
(** A row of 100000 pixels shown with 50000. *)
Theorem C184_scaled_refuted : ~ C184_claim.
Proof.
  intros H. assert (A : other ramp (img 1 100000 1 1 100000) (img 2 50000 1 1 50000)).
  { split; [|split; [|split; [reflexivity|cbn; lia]]]; constructor; cbn; unfold W32; try lia; try discriminate. }
  destruct (H _ _ _ A) as (M & E & V & _). destruct (C184_scaled_wrapped _ _ _ A) as (M' & E' & V' & _).
  rewrite E in E'. assert (M = M') as <- by congruence. cbn [img iw ih icc] in V, V'.
  specialize (V 49999 0 0 ltac:(lia) ltac:(lia) ltac:(lia)). specialize (V' 49999 0 0 ltac:(lia) ltac:(lia) ltac:(lia)).
  rewrite V in V'. discriminate V'.
Qed.

Print Assumptions C182_x11_partial.
Print Assumptions C182_others.
Print Assumptions C182_size_refuted.
Print Assumptions C183_x11_shows_first_partial.
Print Assumptions C183_x11_refuted.
Print Assumptions C184_unscaled.
Print Assumptions C184_scaled_wrapped.
Print Assumptions C184_scaled_partial.
Print Assumptions C184_scaled_refuted.
