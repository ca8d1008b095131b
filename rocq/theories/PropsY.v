(** Properties C155 to C163: File_Operation with PNG and JPEG files.  libpng and libjpeg are the
    record [libs]; what is assumed of them is stated in each theorem. *)
From Coq Require Import ZArith List Bool Lia.
From Verif Require Import Base BaseProofs Image ImgLemmas Spec ImgFun Container ContainerProofs File FileProofs FileSave Codec CodecProofs PropsA PropsJ.
Import ListNotations.
Open Scope Z_scope.

(** ** Vocabulary *)

(** The name ends with [ext]. *)
Definition ends (p ext : name) : Prop := exists stem, p = stem ++ ext.
Definition is_jpg (L : libs) (p : name) : Prop := jpegOn L = true /\ (ends p dot_jpg \/ ends p dot_jpeg).
Definition is_png (L : libs) (p : name) : Prop := pngOn L = true /\ ends p dot_png.
(** Nothing goes wrong in the system. *)
Definition lucky (u : luck) : Prop := canOpen u = true /\ okStruct u = true /\ okInfo u = true.

(** Object [a] is an image of that size with these samples. *)
Definition shows (c : cstate) (a w h cc : Z) (val : Z -> Z -> Z -> Z) : Prop :=
  exists im, cim c a = Some im /\ idata im <> None /\ iw im = w /\ ih im = h /\ icc im = cc /\
    forall x y k, inside w h cc x y k -> pixel (cmem c) im x y k = val x y k.
(** A call that puts a new picture into [a]: files, open files, quality and all other images
    are as before. *)
Definition only_image (w w' : world) (a : Z) : Prop :=
  wfs w' = wfs w /\ wopen w' = wopen w /\ wquality w' = wquality w /\ cinv (wc w') /\ frame (wc w) (wc w') (eq a).
(** A call that writes file [p] and nothing else. *)
Definition only_file (w w' : world) (p : name) (f : file) : Prop :=
  wfs w' p = Some f /\ (forall q, q <> p -> wfs w' q = wfs w q) /\ wopen w' = wopen w /\ wquality w' = wquality w /\ wc w' = wc w.

(** [rows] has [h] rows of [n] samples [val row index]. *)
Definition rows_are (rows : list (list Z)) (n h : Z) (val : Z -> Z -> Z) : Prop :=
  Z.of_nat (length rows) = h /\ forall j, 0 <= j < h ->
    Z.of_nat (length (nth (Z.to_nat j) rows [])) = n /\
    forall o, 0 <= o < n -> nth (Z.to_nat o) (nth (Z.to_nat j) rows []) 0 = val j o.

(** libpng is lossless: it reads the bytes it has written, gray (one sample a pixel) or red,
    green, blue. *)
Definition png_lossless (L : libs) : Prop := forall w h (gray : bool) rows val,
  0 < w <= pngMax L -> 0 < h <= pngMax L -> rows_are rows (w * (if gray then 1 else 3)) h val ->
  (forall j o, 0 <= j < h -> 0 <= o < w * (if gray then 1 else 3) -> 0 <= val j o < 256) ->
  exists g, pngDec L (pngEnc L w h gray rows) = Some g /\ gw g = w /\ gh g = h /\
    gtype g = (if gray then PNG_GRAY else PNG_RGB) /\ gdepth g = 8 /\ gtrns g = false /\
    forall x y k, 0 <= x < w -> 0 <= y < h -> 0 <= k < 3 -> gpix g x y k = val y (if gray then x else 3 * x + k).

(** ** The end of a name *)
Lemma ends_skipn p ext : isSameFileExtension p ext = true <-> ends p ext.
Proof.
  unfold isSameFileExtension, ends. rewrite andb_true_iff, Nat.leb_le. split.
  - intros (Hl & H). destruct (name_eqb_spec (skipn (length p - length ext) p) ext) as [E|]; [|discriminate].
    exists (firstn (length p - length ext) p). rewrite <- E at 2. symmetry. apply firstn_skipn.
  - intros (stem & ->). rewrite app_length. split; [lia|].
    replace (length stem + length ext - length ext)%nat with (length stem + 0)%nat by lia. rewrite skipn_app.
    rewrite skipn_all2 by lia. replace (length stem + 0 - length stem)%nat with 0%nat by lia. cbn [skipn app].
    destruct (name_eqb_spec ext ext); congruence.
Qed.
Lemma isJpeg_iff L p : isJpegFile L p = true <-> is_jpg L p.
Proof.
  unfold isJpegFile, is_jpg. destruct (jpegOn L); [|split; [discriminate|intros (H & _); discriminate]].
  rewrite orb_true_iff, !ends_skipn. tauto.
Qed.
Lemma isPng_iff L p : isPngFile L p = true <-> is_png L p.
Proof.
  unfold isPngFile, is_png. destruct (pngOn L); [|split; [discriminate|intros (H & _); discriminate]].
  rewrite ends_skipn. tauto.
Qed.
(** No name is both. *)
Lemma png_not_jpg L p : is_png L p -> isJpegFile L p = false.
Proof.
  intros (_ & (s1 & ->)). destruct (isJpegFile L (s1 ++ dot_png)) eqn:E; [|reflexivity]. exfalso.
  apply isJpeg_iff in E as (_ & [(s2 & E)|(s2 & E)]); apply (f_equal (@rev Z)) in E; rewrite !rev_app_distr in E; cbn in E; discriminate.
Qed.
Lemma ends_not_empty p ext : ends p ext -> ext <> [] -> exists c t, p = c :: t.
Proof. intros (s & ->) N. destruct s as [|c s]; [destruct ext as [|c t]; [contradiction|]|]; cbn; eauto. Qed.
Lemma load_png L u w p a : is_png L p -> FileLoad L u w p a = PngLoad L u w p a.
Proof. intros H. unfold FileLoad. rewrite (png_not_jpg L p H), (proj2 (isPng_iff L p) H). reflexivity. Qed.
Lemma save_png L u w p im x y sw sh junk : is_png L p -> FileSave L u w p im x y sw sh junk = PngSave L u w p im x y sw sh junk.
Proof. intros H. unfold FileSave. rewrite (png_not_jpg L p H), (proj2 (isPng_iff L p) H). reflexivity. Qed.
Lemma load_jpg L u w p a : is_jpg L p -> FileLoad L u w p a = JpegLoad L u w p a.
Proof. intros H. unfold FileLoad. rewrite (proj2 (isJpeg_iff L p) H). reflexivity. Qed.
Lemma save_jpg L u w p im x y sw sh junk : is_jpg L p -> FileSave L u w p im x y sw sh junk = JpegSave L u w p im x y sw sh.
Proof. intros H. unfold FileSave. rewrite (proj2 (isJpeg_iff L p) H). reflexivity. Qed.
Lemma jpg_name L p : is_jpg L p -> exists c t, p = c :: t.
Proof. intros (_ & [H|H]); (eapply ends_not_empty; [exact H|discriminate]). Qed.

Lemma rows_are_map (f : Z -> Z -> Z) n h : 0 <= n -> 0 <= h -> rows_are (map (fun j => map (f j) (zseq n)) (zseq h)) n h f.
Proof.
  intros Hn Hh. split; [rewrite map_length; apply zseq_length; exact Hh|]. intros j Hj. rewrite nth_map_zseq by exact Hj. split.
  - rewrite map_length. apply zseq_length. exact Hn.
  - intros o Ho. apply nth_map_zseq. exact Ho.
Qed.
Lemma rows_are_ext rows n h f g : rows_are rows n h f -> (forall j o, 0 <= j < h -> 0 <= o < n -> f j o = g j o) -> rows_are rows n h g.
Proof.
  intros (A & B) H. split; [exact A|]. intros j Hj. destruct (B j Hj) as (C & D). split; [exact C|]. intros o Ho. rewrite D by exact Ho. apply H; assumption.
Qed.

(** ** A small library to compute with: a file is the header and the rows. *)
Definition toy_file (w h t q : Z) (rows : list (list Z)) : file :=
  mkBlock (4 + 4 * w * h) (fun o =>
    if o =? 0 then w else if o =? 1 then h else if o =? 2 then t else if o =? 3 then q
    else nth (Z.to_nat ((o - 4) mod (4 * w))) (nth (Z.to_nat ((o - 4) / (4 * w))) rows []) 0).
Definition toy : libs := mkLibs true true 1000
  (fun f => if bget f 0 <=? 0 then None else Some (mkPng (bget f 0) (bget f 1) (if bget f 2 =? 1 then 0 else 2) 8 false
     (fun x y k => bget f (4 + (y * (4 * bget f 0) + (if bget f 2 =? 1 then x else 3 * x + k))))))
  (fun w h gray rows => toy_file w h (if gray then 1 else 3) 0 rows)
  (fun f => if bget f 0 <=? 0 then None else Some (mkJpg (bget f 0) (bget f 1) (bget f 2)
     (fun x y k => bget f (4 + (y * (4 * bget f 0) + (bget f 2 * x + k))))))
  toy_file.
Lemma toy_get w h t q rows n val j o : rows_are rows n h val -> 0 < w -> n <= 4 * w -> 0 <= j < h -> 0 <= o < n ->
  bget (toy_file w h t q rows) (4 + (j * (4 * w) + o)) = val j o.
Proof.
  intros (Hl & H) Hw Hn Hj Ho. unfold toy_file. cbn [bget].
  assert (0 <= j * (4 * w)) by nia.
  rewrite (proj2 (Z.eqb_neq _ 0)), (proj2 (Z.eqb_neq _ 1)), (proj2 (Z.eqb_neq _ 2)), (proj2 (Z.eqb_neq _ 3)) by lia.
  replace (4 + (j * (4 * w) + o) - 4) with (j * (4 * w) + o) by lia.
  destruct (divmod_flat (4 * w) j o ltac:(lia)) as (-> & ->). destruct (H j Hj) as (_ & D). apply D. exact Ho.
Qed.
Lemma toy_lossless : png_lossless toy.
Proof.
  intros w h gray rows val Hw Hh Hr _. eexists. split.
  - unfold toy. cbn [pngDec pngEnc]. unfold toy_file at 1. cbn [bget Z.eqb]. rewrite (proj2 (Z.leb_gt w 0)) by lia. reflexivity.
  - cbn [gw gh gtype gdepth gtrns gpix]. split; [reflexivity|]. split; [reflexivity|]. split; [destruct gray; reflexivity|].
    split; [reflexivity|]. split; [reflexivity|]. intros x y k Hx Hy Hk.
    assert (E2 : bget (toy_file w h (if gray then 1 else 3) 0 rows) 2 = if gray then 1 else 3) by reflexivity.
    assert (E0 : bget (toy_file w h (if gray then 1 else 3) 0 rows) 0 = w) by reflexivity.
    rewrite E2, E0. replace (if (if gray then 1 else 3) =? 1 then x else 3 * x + k) with (if gray then x else 3 * x + k) by (destruct gray; reflexivity).
    apply (toy_get _ _ _ _ _ _ val y _ Hr); destruct gray; lia.
Qed.
Definition good : luck := mkLuck true true true.
Lemma good_lucky : lucky good.
Proof. repeat split. Qed.
(** An empty image (object 0) and no files; the memory is [emem]. *)
Definition world0 : world := mkWorld (fun _ => None) 0 100 (set_img (cinit emem) 0 (Some (default_image 0))).
Lemma default_ok : img_ok (default_image 0).
Proof. constructor; cbn; try discriminate; lia. Qed.
Lemma world0_inv : cinv (wc world0).
Proof.
  apply cinv_set_none; [apply cinv_init| |].
  - cbn. discriminate.
  - intros im E. injection E as <-. split; [apply default_ok|reflexivity].
Qed.
Definition a_png : name := 97 :: dot_png.
Definition a_jpg : name := 97 :: dot_jpg.
Lemma a_png_is : is_png toy a_png.
Proof. split; [reflexivity|]. exists [97]. reflexivity. Qed.
Lemma a_jpg_is : is_jpg toy a_jpg.
Proof. split; [reflexivity|]. left. exists [97]. reflexivity. Qed.

(** ** Saving *)
Lemma only_file_close u w w1 p f : open_write u w p = Some w1 -> only_file w (fclose (set_file w1 p f)) p f.
Proof.
  unfold open_write. destruct (canOpen u); [|discriminate]. intros E. injection E as <-. unfold only_file, fclose, set_file, set_open.
  cbn [wfs wopen wquality wc]. split; [destruct (name_eqb_spec p p); congruence|]. split.
  - intros q Hq. destruct (name_eqb_spec q p); [contradiction|reflexivity].
  - split; [lia|]. split; reflexivity.
Qed.
Lemma PngSave_ok L u w p im x y sw sh junk : lucky u -> pngOn L = true -> area (cmem (wc w)) im x y sw sh ->
  sw <= pngMax L -> sh <= pngMax L ->
  let gray := icc im =? 1 in
  exists w' rows, PngSave L u w p im x y sw sh junk = Ok w' /\ only_file w w' p (pngEnc L sw sh gray rows) /\
    rows_are rows (sw * (if gray then 1 else 3)) sh (out_byte (cmem (wc w)) im gray x y).
Proof.
  intros (U1 & U2 & U3) On Ha Hw Hh gray. pose proof Ha as (Hwf & Hr). unfold PngSave. rewrite On. cbn [negb].
  rewrite (valid_roi_ok _ _ _ _ _ _ Hwf Hr). cbn [negb].
  destruct (open_write u w p) as [w1|] eqn:Eo; [|unfold open_write in Eo; rewrite U1 in Eo; discriminate].
  rewrite U2, U3. cbn [negb]. rewrite (proj2 (Z.ltb_ge (pngMax L) sw) Hw), (proj2 (Z.ltb_ge (pngMax L) sh) Hh). cbn [orb].
  assert (Ec : wc w1 = wc w) by (unfold open_write in Eo; rewrite U1 in Eo; injection Eo as <-; reflexivity). rewrite Ec.
  change (icc im =? GRAY_SCALE) with gray.
  destruct (png_out_rows_ok (cmem (wc w)) im gray x y sw sh junk Ha) as (rm & Er & Rm).
  { unfold gray. intros G. apply Z.eqb_neq in G. destruct (wf_cc _ _ Hwf) as [|[|]]; lia. }
  rewrite Er. cbn [lift_mem bind].
  replace (if gray then sw else sw * 3) with (sw * (if gray then 1 else 3)) by (destruct gray; lia). rewrite Rm.
  eexists _, _. split; [reflexivity|]. split; [apply (only_file_close u _ _ _ _ Eo)|].
  destruct Hr. apply rows_are_map; destruct gray; lia.
Qed.
Lemma JpegSave_ok L u w p im sw sh x y : lucky u -> jpegOn L = true -> area (cmem (wc w)) im x y sw sh -> area (cmem (wc w)) im 0 0 sw sh ->
  sw <= JPEG_MAX -> sh <= JPEG_MAX -> icc im <> 4 ->
  exists w' rows, JpegSave L u w p im x y sw sh = Ok w' /\ only_file w w' p (jpgEnc L sw sh (icc im) (wquality w) rows) /\
    rows_are rows (sw * icc im) sh (fun j o => get (cmem (wc w)) (padd (ibase im) (j * irs im + o))).
Proof.
  intros (U1 & U2 & U3) On Ha Ha0 Hw Hh H4. pose proof Ha as (Hwf & Hr). unfold JpegSave. rewrite On. cbn [negb].
  rewrite (valid_roi_ok _ _ _ _ _ _ Hwf Hr). cbn [negb].
  destruct (open_write u w p) as [w1|] eqn:Eo; [|unfold open_write in Eo; rewrite U1 in Eo; discriminate].
  assert (Ec : wc w1 = wc w /\ wquality w1 = wquality w) by (unfold open_write in Eo; rewrite U1 in Eo; injection Eo as <-; split; reflexivity).
  destruct Ec as (Ec & Eq). rewrite (proj2 (Z.ltb_ge JPEG_MAX sw) Hw), (proj2 (Z.ltb_ge JPEG_MAX sh) Hh). cbn [orb].
  replace (icc im =? (if icc im =? 1 then 1 else 3)) with true.
  2:{ symmetry. destruct (wf_cc _ _ Hwf) as [E|[E|E]]; rewrite E; try reflexivity. contradiction. }
  cbn [negb]. rewrite Ec, Eq, (jpg_out_rows_ok (cmem (wc w)) im sw sh Ha0). cbn [lift_mem bind].
  eexists _, _. split; [reflexivity|]. split; [apply (only_file_close u _ _ _ _ Eo)|].
  pose proof (wf_cc_pos _ _ Hwf). destruct Hr. apply rows_are_map; nia.
Qed.

(** ** C158: a PNG file is shown as it is *)
(** Every picture that the format allows, whatever the image was before.  The samples of a colour
    image are blue, green, red, as in a bitmap. *)
Theorem C158_png_load L u w p a f g old : lucky u -> is_png L p -> wfs w p = Some f -> pngDec L f = Some g ->
  png_valid 1431655765 g -> cinv (wc w) -> cim (wc w) a = Some old ->
  exists w', FileLoad L u w p a = Ok w' /\ only_image w w' a /\
    shows (wc w') a (gw g) (gh g) (if png_gray g then 1 else 3) (fun x y k => gpix g x y (if png_gray g then 0 else 2 - k)).
Proof.
  intros (U1 & U2 & U3) Hp Hf Hd Hv I Ea. rewrite (load_png _ _ _ _ _ Hp). unfold PngLoad. rewrite (proj1 Hp). cbn [negb].
  destruct (ends_not_empty _ _ (proj2 Hp)) as (c0 & t & Ep); [discriminate|]. subst p.
  unfold open_read. rewrite U1, Hf, U2, U3, Hd. cbn [negb].
  destruct (png_image_ok g (cmem (wc w)) (cnext (wc w)) (bget (cmem (wc w) (cnext (wc w)))) Hv) as (m' & im & E & Eim & Hlen & Hoth & Hpix).
  rewrite E. cbn [lift_mem bind fst snd fclose set_open wc wopen wfs wquality]. cbn zeta.
  assert (Hok : img_ok im).
  { pose proof Hv as (Hw & Hh & _). subst im. constructor; cbn; try discriminate; try (destruct (png_gray g); lia).
    intros q _. unfold roundup. rewrite Z.div_1_r, W32_val. destruct (png_gray g); repeat split; lia. }
  destruct (move_in_ok (wc w) a old m' im I Ea Hok Hoth) as (c' & Ec & I' & Ea' & Fr & _ & _ & Hg).
  { intros q Hq. subst im. cbn [idata ih irs] in *. injection Hq as <-. split; [reflexivity|]. rewrite Hlen. lia. }
  unfold fclose, set_open. cbn [wc wfs wopen wquality]. rewrite Ec. cbn [lift bind].
  eexists. split; [reflexivity|]. split.
  - unfold only_image, set_c. cbn [wc wfs wopen wquality]. split; [reflexivity|]. split; [lia|]. split; [reflexivity|]. split; assumption.
  - exists im. unfold set_c. cbn [wc]. split; [exact Ea'|]. pose proof Eim as Eim'. subst im. cbn [idata iw ih icc irs] in *.
    split; [discriminate|]. split; [reflexivity|]. split; [reflexivity|]. split; [reflexivity|].
    intros x y k (Hx & Hy & Hk). unfold pixel, px, ibase. cbn [idata irs icc fst snd]. rewrite Hg.
    rewrite <- Hpix by assumption. f_equal.
Qed.

(** ** C155: saving and loading a PNG file *)
Lemma out_byte_pixel m im (gray : bool) x y w j i c : gray = (icc im =? 1) -> (icc im = 1 \/ icc im = 3) ->
  0 <= i < w -> 0 <= c < icc im ->
  out_byte m im gray x y j (if gray then i else 3 * i + (2 - c)) = pixel m im (x + i) (y + j) c.
Proof.
  intros Hg Hcc Hi Hc. unfold out_byte, pixel. rewrite px_origin. f_equal. f_equal. f_equal.
  destruct Hcc as [E|E]; rewrite E in *; cbn [Z.eqb Pos.eqb] in Hg; subst gray.
  - lia.
  - unfold reversed. replace (3 * i + (2 - c)) with (i * 3 + (2 - c)) by lia.
    destruct (divmod_flat 3 i (2 - c) ltac:(lia)) as (-> & ->). lia.
Qed.
Definition C155_claim : Prop := forall L u w p im x y sw sh junk a old,
  png_lossless L -> pngMax L <= 1431655765 -> lucky u -> is_png L p -> cinv (wc w) -> cim (wc w) a = Some old ->
  area (cmem (wc w)) im x y sw sh -> bytes (cmem (wc w)) im -> sw <= pngMax L -> sh <= pngMax L ->
  exists w1 w2, FileSave L u w p im x y sw sh junk = Ok w1 /\ FileLoad L u w1 p a = Ok w2 /\
    shows (wc w2) a sw sh (Z.min (icc im) 3) (fun i j c => pixel (cmem (wc w)) im (x + i) (y + j) c).
(** A region with one or three channels comes back as it was; nothing else has changed. *)
Theorem C155_png_round_trip_partial L u w p im x y sw sh junk a old :
  png_lossless L -> pngMax L <= 1431655765 -> lucky u -> is_png L p -> cinv (wc w) -> cim (wc w) a = Some old ->
  area (cmem (wc w)) im x y sw sh -> bytes (cmem (wc w)) im -> sw <= pngMax L -> sh <= pngMax L -> icc im <> 4 ->
  exists w1 w2 f, FileSave L u w p im x y sw sh junk = Ok w1 /\ FileLoad L u w1 p a = Ok w2 /\
    only_file w w1 p f /\ only_image w1 w2 a /\
    shows (wc w2) a sw sh (icc im) (fun i j c => pixel (cmem (wc w)) im (x + i) (y + j) c).
Proof.
  intros HL Hmax U Hp I Ea Ha Hb Hw Hh H4. pose proof Ha as (Hwf & Hr). pose proof Hr as [Rx Ry Rw Rh Rxw Ryh].
  assert (Hcc : icc im = 1 \/ icc im = 3) by (destruct (wf_cc _ _ Hwf) as [|[|]]; tauto).
  destruct (PngSave_ok L u w p im x y sw sh junk U (proj1 Hp) Ha Hw Hh) as (w1 & rows & E1 & Of & Hrows).
  set (gray := icc im =? 1) in *.
  assert (En : (if gray then 1 else 3) = icc im) by (unfold gray; destruct Hcc as [E|E]; rewrite E; reflexivity).
  assert (Hval : forall j i c, 0 <= i < sw -> 0 <= c < icc im ->
    out_byte (cmem (wc w)) im gray x y j (if gray then i else 3 * i + (2 - c)) = pixel (cmem (wc w)) im (x + i) (y + j) c).
  { intros j i c Hi Hc. apply (out_byte_pixel _ _ _ _ _ sw); auto. }
  destruct (HL sw sh gray rows _ ltac:(lia) ltac:(lia) Hrows) as (g & Ed & G1 & G2 & G3 & G4 & G5 & Gp).
  { intros j o Hj Ho.
    assert (exists i c, 0 <= i < sw /\ 0 <= c < icc im /\ o = if gray then i else 3 * i + (2 - c)) as (i & c & Hi & Hc & ->).
    { unfold gray in *. destruct Hcc as [E|E]; rewrite E in *; cbn [Z.eqb Pos.eqb] in *.
      - exists o, 0. lia.
      - exists (o / 3), (2 - o mod 3). lia. }
    rewrite Hval by assumption. apply Hb; lia. }
  destruct Of as (Of1 & Of2 & Of3 & Of4 & Of5).
  assert (Hgray : png_gray g = gray) by (unfold png_gray; rewrite G3; destruct gray; reflexivity).
  destruct (C158_png_load L u w1 p a (pngEnc L sw sh gray rows) g old U Hp Of1 Ed) as (w2 & E2 & Oi & Sh); try (rewrite Of5; assumption).
  { unfold png_valid. rewrite G1, G2, G3, G4. split; [lia|]. split; [lia|]. destruct gray; [left|right; right]; (split; [|cbn; tauto]); [reflexivity|left; reflexivity]. }
  exists w1, w2, (pngEnc L sw sh gray rows). split; [rewrite (save_png _ _ _ _ _ _ _ _ _ _ Hp); exact E1|]. split; [exact E2|].
  split; [repeat split; assumption|]. split; [exact Oi|]. rewrite G1, G2, Hgray, En in Sh.
  destruct Sh as (im' & A1 & A2 & A3 & A4 & A5 & A6). exists im'. repeat (split; [assumption|]).
  intros i j c (Hi & Hj & Hc). rewrite A6 by (unfold inside; lia). rewrite Gp.
  - rewrite <- (Hval j i c Hi Hc). destruct gray; reflexivity.
  - exact Hi.
  - exact Hj.
  - unfold gray in *. destruct Hcc as [E|E]; rewrite E in *; cbn [Z.eqb Pos.eqb]; lia.
Qed.
(** A 2 x 1 image of four channels: the second pixel takes the alpha value of the first one. *)
Theorem C155_png_round_trip_refuted : ~ C155_claim.
Proof.
  intros H. destruct (H toy good world0 a_png (img 1 2 1 4 8) 0 0 2 1 (fun _ _ => 0) 0 (default_image 0))
    as (w1 & w2 & E1 & E2 & im & A1 & _ & _ & _ & A5 & A6).
  - apply toy_lossless.
  - cbn. lia.
  - apply good_lucky.
  - apply a_png_is.
  - apply world0_inv.
  - reflexivity.
  - change (cmem (wc world0)) with emem. solve_area.
  - change (cmem (wc world0)) with emem. apply emem_bytes.
  - cbn. lia.
  - cbn. lia.
  - specialize (A6 1 0 0 ltac:(cbn; unfold inside; lia)).
    assert (X : match FileSave toy good world0 a_png (img 1 2 1 4 8) 0 0 2 1 (fun _ _ => 0) with
      | Ok w1 => match FileLoad toy good w1 a_png 0 with
        | Ok w2 => match cim (wc w2) 0 with Some im => pixel (cmem (wc w2)) im 1 0 0 =? 122 | None => false end
        | _ => false end
      | _ => false end = true) by (vm_compute; reflexivity).
    rewrite E1, E2, A1 in X. apply Z.eqb_eq in X. rewrite X in A6. vm_compute in A6. discriminate.
Qed.
Example C155_case : exists w1 w2 f, FileSave toy good world0 a_png (img 1 9 5 3 28) 2 1 5 4 (fun _ _ => 0) = Ok w1 /\
  FileLoad toy good w1 a_png 0 = Ok w2 /\ only_file world0 w1 a_png f /\ only_image w1 w2 0 /\
  shows (wc w2) 0 5 4 3 (fun i j c => pixel emem (img 1 9 5 3 28) (2 + i) (1 + j) c).
Proof.
  apply (C155_png_round_trip_partial toy good world0 a_png (img 1 9 5 3 28) 2 1 5 4 (fun _ _ => 0) 0 (default_image 0));
    try (cbn; lia); [apply toy_lossless|apply good_lucky|apply a_png_is|apply world0_inv|reflexivity| |];
    change (cmem (wc world0)) with emem; [solve_area|apply emem_bytes].
Qed.
(** A palette of sixteen colours, transparent ones among them. *)
Definition palette16 : png := mkPng 3 2 PNG_PALETTE 4 true (fun x y k => x + 10 * y + 100 * k).
Definition toy16 : libs := mkLibs true true 1000 (fun _ => Some palette16) (pngEnc toy) (jpgDec toy) (jpgEnc toy).
Definition world1 : world := set_file world0 a_png (mkBlock 70 (fun _ => 1)).
Example C158_case : exists w', FileLoad toy16 good world1 a_png 0 = Ok w' /\ only_image world1 w' 0 /\
  shows (wc w') 0 3 2 3 (fun x y k => x + 10 * y + 100 * (2 - k)).
Proof.
  apply (C158_png_load toy16 good world1 a_png 0 (mkBlock 70 (fun _ => 1)) palette16 (default_image 0));
    [apply good_lucky|apply a_png_is|reflexivity|reflexivity| |apply world0_inv|reflexivity].
  unfold png_valid. cbn. split; [lia|]. split; [lia|]. tauto.
Qed.
Print Assumptions C155_png_round_trip_partial.
Print Assumptions C155_png_round_trip_refuted.
Print Assumptions C158_png_load.

(** ** C163: the JPEG quality *)
(** A history of calls of SetImageQuality, those that throw among them. *)
Definition set_quality (w : world) (q : Z) : world :=
  match SetImageQuality w q with Ok w' => w' | Throw (Exn w') => w' | _ => w end.
Definition accepted (q : Z) : bool := (1 <=? q) && (q <=? 100).
Theorem C163_quality_range w q :
  (1 <= q <= 100 -> exists w', SetImageQuality w q = Ok w' /\ GetImageQuality w' = q /\ wfs w' = wfs w /\ wopen w' = wopen w /\ wc w' = wc w) /\
  (~ 1 <= q <= 100 -> SetImageQuality w q = Throw (Exn w)).
Proof.
  unfold SetImageQuality. destruct (Z.ltb_spec q 1), (Z.ltb_spec 100 q); cbn [orb]; split; intros H1; try lia; try reflexivity.
  eexists. split; [reflexivity|]. repeat split.
Qed.
Theorem C163_quality_history w qs :
  GetImageQuality (fold_left set_quality qs w) = last (filter accepted qs) (GetImageQuality w) /\
  (1 <= GetImageQuality w <= 100 -> 1 <= GetImageQuality (fold_left set_quality qs w) <= 100).
Proof.
  assert (X : GetImageQuality (fold_left set_quality qs w) = last (filter accepted qs) (GetImageQuality w)).
  { revert w. induction qs as [|q qs IH]; intros w; [reflexivity|]. cbn [fold_left filter]. rewrite IH.
    unfold set_quality, SetImageQuality, accepted at 2.
    destruct (Z.ltb_spec q 1), (Z.ltb_spec 100 q), (Z.leb_spec 1 q), (Z.leb_spec q 100); try lia; cbn [orb andb]; try reflexivity.
    unfold GetImageQuality. cbn [wquality]. generalize (filter accepted qs) as l. intros l. revert q H H0 H1 H2. generalize (wquality w) as d.
    induction l as [|x l IHl]; intros d q _ _ _ _; [reflexivity|]. destruct l; [reflexivity|]. cbn [last] in *.
    change (last (z :: l) q = last (z :: l) d). clear. revert z. induction l as [|y l IHl]; intros z; [reflexivity|]. cbn [last]. apply IHl. }
  split; [exact X|]. rewrite X. intros H. clear X. revert H. generalize (GetImageQuality w) as d. induction qs as [|q qs IH]; intros d H; [exact H|].
  cbn [filter]. destruct (accepted q) eqn:Eq; [|apply IH; exact H]. unfold accepted in Eq. apply andb_prop in Eq as [Q1 Q2]. apply Z.leb_le in Q1, Q2.
  destruct (filter accepted qs) as [|z l] eqn:E; [cbn [last]; lia|]. cbn [last]. apply (IH d H).
Qed.
Example C163_case : GetImageQuality (fold_left set_quality [0; 55; 101; 70; -3; 1000] world0) = 70.
Proof. reflexivity. Qed.
Print Assumptions C163_quality_range.
Print Assumptions C163_quality_history.

(** ** C156: a JPEG file is made of the requested region *)
Definition C156_claim : Prop := forall L u w p im x y sw sh junk,
  lucky u -> is_jpg L p -> area (cmem (wc w)) im x y sw sh -> icc im <> 4 -> sw <= JPEG_MAX -> sh <= JPEG_MAX ->
  exists w' rows, FileSave L u w p im x y sw sh junk = Ok w' /\
    only_file w w' p (jpgEnc L sw sh (icc im) (GetImageQuality w) rows) /\
    rows_are rows (sw * icc im) sh (fun j o => pixel (cmem (wc w)) im (x + o / icc im) (y + j) (o mod icc im)).
(** Regions that begin at the corner of the image. *)
Theorem C156_jpeg_rows_partial L u w p im sw sh junk :
  lucky u -> is_jpg L p -> area (cmem (wc w)) im 0 0 sw sh -> icc im <> 4 -> sw <= JPEG_MAX -> sh <= JPEG_MAX ->
  exists w' rows, FileSave L u w p im 0 0 sw sh junk = Ok w' /\
    only_file w w' p (jpgEnc L sw sh (icc im) (GetImageQuality w) rows) /\
    rows_are rows (sw * icc im) sh (fun j o => pixel (cmem (wc w)) im (o / icc im) j (o mod icc im)).
Proof.
  intros U Hp Ha H4 Hw Hh. pose proof Ha as (Hwf & _). pose proof (wf_cc_pos _ _ Hwf).
  destruct (JpegSave_ok L u w p im sw sh 0 0 U (proj1 Hp) Ha Ha Hw Hh H4) as (w' & rows & E & Of & Hr).
  exists w', rows. split; [rewrite (save_jpg _ _ _ _ _ _ _ _ _ _ Hp); exact E|]. split; [exact Of|].
  apply (rows_are_ext _ _ _ _ _ Hr). intros j o Hj Ho. unfold pixel, px. f_equal. unfold padd, ibase. f_equal.
  pose proof (Z.div_mod o (icc im) ltac:(lia)). lia.
Qed.
(** Column 1 of a 2 x 1 image: the file gets column 0. *)
Theorem C156_jpeg_rows_refuted : ~ C156_claim.
Proof.
  intros H. destruct (H toy good world0 a_jpg (img 1 2 1 1 4) 1 0 1 1 (fun _ _ => 0)) as (w' & rows & E & (Of & _) & Hr).
  - apply good_lucky.
  - apply a_jpg_is.
  - change (cmem (wc world0)) with emem. solve_area.
  - cbn. lia.
  - unfold JPEG_MAX. lia.
  - unfold JPEG_MAX. lia.
  - assert (X : match FileSave toy good world0 a_jpg (img 1 2 1 1 4) 1 0 1 1 (fun _ _ => 0) with
      | Ok w' => match wfs w' a_jpg with Some f => bget f (4 + (0 * (4 * 1) + 0)) =? 11 | None => false end
      | _ => false end = true) by (vm_compute; reflexivity).
    rewrite E, Of in X. apply Z.eqb_eq in X. change (jpgEnc toy) with toy_file in X.
    rewrite (toy_get _ _ _ _ _ _ _ 0 0 Hr) in X by (cbn; lia). vm_compute in X. discriminate.
Qed.
Example C156_case : exists w' rows, FileSave toy good world0 a_jpg (img 1 9 5 3 28) 0 0 5 4 (fun _ _ => 0) = Ok w' /\
  only_file world0 w' a_jpg (toy_file 5 4 3 100 rows) /\
  rows_are rows (5 * 3) 4 (fun j o => pixel emem (img 1 9 5 3 28) (o / 3) j (o mod 3)).
Proof.
  apply (C156_jpeg_rows_partial toy good world0 a_jpg (img 1 9 5 3 28) 5 4 (fun _ _ => 0)); try (cbn; unfold JPEG_MAX; lia);
    [apply good_lucky|apply a_jpg_is|]. change (cmem (wc world0)) with emem. solve_area.
Qed.
Print Assumptions C156_jpeg_rows_partial.
Print Assumptions C156_jpeg_rows_refuted.

(** ** C159: a JPEG file is shown as it is *)
Definition C159_claim : Prop := forall L u w p a f j old, lucky u -> is_jpg L p -> wfs w p = Some f -> jpgDec L f = Some j ->
  0 < jw j <= JPEG_MAX -> 0 < jh j <= JPEG_MAX -> In (jcomp j) [1; 3; 4] -> cinv (wc w) -> cim (wc w) a = Some old -> ial old < 256 ->
  exists w', FileLoad L u w p a = Ok w' /\ only_image w w' a /\ shows (wc w') a (jw j) (jh j) (jcomp j) (jpix j).
(** Proved when the last row begins before 2^32 (for every limit and number of components
    of the library). *)
Theorem C159_jpeg_load_partial L u w p a f j old : lucky u -> is_jpg L p -> wfs w p = Some f -> jpgDec L f = Some j ->
  0 < jw j -> 0 < jh j < W32 -> 0 < jcomp j < 256 -> cinv (wc w) -> cim (wc w) a = Some old -> ial old < 256 ->
  roundup (jw j * jcomp j) (ial old) < W32 -> roundup (jw j * jcomp j) (ial old) * (jh j - 1) < W32 ->
  exists w', FileLoad L u w p a = Ok w' /\ only_image w w' a /\ shows (wc w') a (jw j) (jh j) (jcomp j) (jpix j).
Proof.
  intros (U1 & _ & _) Hp Hf Hd Hw Hh Hc I Ea Hal Hr H32. rewrite (load_jpg _ _ _ _ _ Hp). unfold JpegLoad. rewrite (proj1 Hp). cbn [negb].
  destruct (jpg_name _ _ Hp) as (c0 & t & Ep). subst p. unfold open_read. rewrite U1, Hf, Hd.
  pose proof (ok_al _ (ci_img _ I a old Ea)) as Hal0.
  pose proof (roundup_ge (jw j * jcomp j) (ial old) Hal0) as Hge.
  assert (Hjw : jw j < W32) by nia.
  set (cc := if (0 <? jcomp j) && (jcomp j <? 256) then u8 (jcomp j) else 1).
  assert (Ecc : cc = jcomp j) by (unfold cc, u8; rewrite (proj2 (Z.ltb_lt 0 (jcomp j))), (proj2 (Z.ltb_lt (jcomp j) 256)) by lia; cbn [andb]; apply Z.mod_small; lia).
  rewrite Ecc. cbn [set_open wc wfs wopen wquality].
  unfold with_img. rewrite Ea.
  destruct (setColorCount_ok (wc w) a old (jcomp j) I Ea ltac:(lia)) as (c1 & E1 & I1 & F1 & _ & im1 & Ea1 & Ecc1 & Eal1 & Ety1).
  rewrite E1. cbn [lift bind]. rewrite Ea1. replace (jcomp j =? 0) with false in Ecc1 by (symmetry; apply Z.eqb_neq; lia).
  destruct (resize_ok c1 a im1 (jw j) (jh j) I1 Ea1) as (c2 & E2 & I2 & F2 & _ & X2 & _).
  { rewrite Ecc1, Eal1. repeat split; try lia. }
  destruct (X2 Hw (proj1 Hh)) as (im & Ea2 & Ew & Eh & Ecc2 & Eal2 & _).
  rewrite E2. cbn [lift bind]. rewrite Ea2.
  pose proof (ci_img _ I2 a im Ea2) as Hok.
  destruct (idata im) as [q|] eqn:Eq.
  2:{ exfalso. destruct (ok_empty _ Hok Eq) as (_ & _ & Z0 & _). lia. }
  destruct (ci_buf _ I2 a im q Ea2 Eq) as (Q0 & _ & Ql). destruct q as [nb q0]. cbn [fst snd] in Q0, Ql. subst q0.
  destruct (ok_geo _ Hok _ Eq) as (_ & _ & Ers & _). rewrite Ew, Ecc2, Ecc1, Eal2, Eal1 in Ers.
  destruct (jpg_lines_ok j (cmem c2) im nb Eq Hw (proj1 Hh) (proj1 Hc)) as (m' & -> & Lm & G & N).
  { lia. } { rewrite <- Eh. exact Ql. } { rewrite Ers. exact H32. }
  cbn [lift bind]. eexists. split; [reflexivity|]. split.
  - unfold only_image, fclose, set_open, set_c. cbn [wfs wopen wquality wc]. split; [reflexivity|]. split; [lia|]. split; [reflexivity|].
    split; [apply cinv_mem; [exact I2|exact Lm]|].
    apply (frame_trans _ _ _ _ (frame_trans _ _ _ _ F1 F2)). intros b imb Hb Eb. cbn [cim cmem]. split; [exact Eb|].
    intros pb Hpb. split; [apply Lm|]. intros o. apply N. intros Ex. apply Hb.
    apply (ci_excl _ I2 a b nb); [exists im; auto|]. exists imb. split; [exact Eb|]. destruct (ci_buf _ I2 b imb pb Eb Hpb) as (Z0 & _).
    destruct pb as [b1 o1]. cbn [fst snd] in *. subst. exact Hpb.
  - exists im. unfold fclose, set_open, set_c. cbn [wc cim cmem]. split; [exact Ea2|]. split; [congruence|]. split; [exact Ew|]. split; [exact Eh|].
    split; [congruence|]. intros x y k (Hx & Hy & Hk). unfold pixel, px, ibase. rewrite Eq. cbn [fst snd]. unfold padd. cbn [fst snd].
    rewrite Z.add_0_l. replace (y * irs im + x * icc im + k) with (y * irs im + (x * jcomp j + k)) by (rewrite Ecc2, Ecc1; lia).
    rewrite G by nia. destruct (divmod_flat (jcomp j) x k Hk) as (-> & ->). reflexivity.
Qed.
Print Assumptions C159_jpeg_load_partial.
(** 65500 x 65500 pixels of three components are allowed by the format; the rows from 21858 on
    are stored over the first ones, and the last one keeps what was in the memory. *)
Lemma jpg_lines_high j m im nb m' : idata im = Some (nb, 0) -> jpg_lines j m im = Ok m' ->
  forall o, W32 + jw j * jcomp j <= o -> get m' (nb, o) = get m (nb, o).
Proof.
  intros Hd. unfold jpg_lines, dataptr. rewrite Hd. remember 0 as k eqn:Hk in |- * at 1. clear Hk.
  generalize (Z.to_nat (jh j)) as n. intros n. revert m k.
  induction n as [|n IH]; intros m k E o Ho; cbn [iterM] in E; [congruence|].
  unfold blit in E. destruct (range_ok m (padd (nb, 0) (u32 (irs im * k))) (jw j * jcomp j)); cbn [bind] in E; [|discriminate].
  rewrite (IH _ _ E o Ho). unfold get, padd. cbn [fst snd]. rewrite Z.eqb_refl. cbn [bget].
  assert (u32 (irs im * k) < W32) by (unfold u32; rewrite W32_val; apply Z.mod_pos_bound; lia).
  rewrite (proj2 (Z.ltb_ge o _)) by lia. rewrite andb_false_r. reflexivity.
Qed.
Definition big_jpg : jpg := mkJpg 65500 65500 3 (fun _ _ _ => 77).
Definition toy_big : libs := mkLibs true true 1000 (pngDec toy) (pngEnc toy) (fun _ => Some big_jpg) (jpgEnc toy).
Definition world2 : world := set_file world0 a_jpg (mkBlock 70 (fun _ => 1)).
Lemma jpeg_fresh L u w p a f j : lucky u -> is_jpg L p -> wfs w p = Some f -> jpgDec L f = Some j -> jcomp j = 3 -> 0 < jw j -> 0 < jh j ->
  cim (wc w) a = Some (default_image 0) ->
  exists c2 im, cim c2 a = Some im /\ idata im = Some (cnext (wc w), 0) /\ irs im = row_size (jw j) 3 1 /\ icc im = 3 /\
    (forall o, get (cmem c2) (cnext (wc w), o) = bget (cmem (wc w) (cnext (wc w))) o) /\
    forall w', FileLoad L u w p a = Ok w' -> exists m', jpg_lines j (cmem c2) im = Ok m' /\ cim (wc w') a = Some im /\ cmem (wc w') = m'.
Proof.
  intros (U1 & _) Hp Hf Hd Hc Hw Hh Ea.
  set (c1 := set_img (set_img (wc w) a (Some (mkImage 0 0 1 1 0 None 0))) a (Some (mkImage 0 0 3 1 0 None 0))).
  assert (E1 : with_img (wc w) a (fun im => setColorCount (wc w) a im 3) = Ok c1).
  { unfold with_img. rewrite Ea. reflexivity. }
  set (im := mkImage (jw j) (jh j) 3 1 (row_size (jw j) 3 1) (Some (cnext (wc w), 0)) 0).
  set (c2 := set_img (fst (alloc (set_img c1 a (Some (mkImage 0 0 3 1 0 None 0))) (jh j * row_size (jw j) 3 1))) a (Some im)).
  assert (E2 : with_img c1 a (fun im => resize c1 a im (jw j) (jh j)) = Ok c2).
  { unfold with_img. assert (Q : cim c1 a = Some (mkImage 0 0 3 1 0 None 0)) by apply set_same. rewrite Q. unfold resize. cbn [iw ih icc ial ity].
    rewrite (proj2 (Z.ltb_lt 0 (jw j)) Hw), (proj2 (Z.ltb_lt 0 (jh j)) Hh), (proj2 (Z.eqb_neq (jw j) 0)) by lia. reflexivity. }
  assert (Q2 : cim c2 a = Some im) by apply set_same.
  exists c2, im. split; [exact Q2|]. split; [reflexivity|]. split; [reflexivity|]. split; [reflexivity|]. split.
  { intros o. unfold c2, alloc, get. cbn. rewrite Z.eqb_refl. reflexivity. }
  intros w' E. rewrite (load_jpg L u w p a Hp) in E. unfold JpegLoad in E. rewrite (proj1 Hp) in E. cbn [negb] in E.
  destruct (jpg_name _ _ Hp) as (p0 & pt & Ep). subst p. unfold open_read in E. rewrite U1, Hf, Hd, Hc in E.
  change (if (0 <? 3) && (3 <? 256) then u8 3 else 1) with 3 in E. cbv zeta in E.
  change (wc (set_open w (wopen w + 1))) with (wc w) in E. rewrite E1 in E. cbn [lift bind] in E. rewrite E2 in E. cbn [lift bind] in E.
  unfold with_img in E. rewrite Q2 in E. destruct (jpg_lines j (cmem c2) im) as [m'| | |] eqn:J; cbn [lift bind] in E; try discriminate.
  injection E as <-. exists m'. split; [reflexivity|]. split; [exact Q2|reflexivity].
Qed.
Theorem C159_jpeg_load_refuted : ~ C159_claim.
Proof.
  intros H.
  assert (Nm : is_jpg toy_big a_jpg) by (split; [reflexivity|]; left; exists [97]; reflexivity).
  destruct (jpeg_fresh toy_big good world2 a_jpg 0 (mkBlock 70 (fun _ => 1)) big_jpg) as (c2 & im & _ & Ed & Er & Ec & Hj & HL);
    try reflexivity; try exact Nm; try apply good_lucky.
  destruct (H toy_big good world2 a_jpg 0 (mkBlock 70 (fun _ => 1)) big_jpg (default_image 0)) as (w' & E & _ & im' & Ea & _ & _ & _ & _ & P);
    try reflexivity; try exact Nm; try apply good_lucky; try apply world0_inv.
  - cbn [jw big_jpg]. unfold JPEG_MAX. lia.
  - cbn [jh big_jpg]. unfold JPEG_MAX. lia.
  - cbn. auto.
  - destruct (HL w' E) as (m' & J & Ea' & Em). assert (im' = im) by congruence. subst im'.
    specialize (P 0 65499 0 ltac:(unfold inside; cbn [jw jh jcomp big_jpg]; lia)).
    unfold pixel, px, ibase in P. rewrite Ed, Em in P. cbn [fst snd] in P. unfold padd in P. cbn [fst snd] in P.
    change (row_size (jw big_jpg) 3 1) with 196500 in Er. rewrite Er, Ec in P.
    rewrite (jpg_lines_high _ _ _ _ _ Ed J) in P by (cbn [jw jcomp big_jpg]; rewrite W32_val; lia).
    rewrite Hj in P. vm_compute in P. discriminate.
Qed.
Definition small_jpg : jpg := mkJpg 4 3 3 (fun x y k => 10 * x + 50 * y + k).
Definition toy_small : libs := mkLibs true true 1000 (pngDec toy) (pngEnc toy) (fun _ => Some small_jpg) (jpgEnc toy).
Example C159_case : exists w', FileLoad toy_small good world2 a_jpg 0 = Ok w' /\ only_image world2 w' 0 /\
  shows (wc w') 0 4 3 3 (fun x y k => 10 * x + 50 * y + k).
Proof.
  apply (C159_jpeg_load_partial toy_small good world2 a_jpg 0 (mkBlock 70 (fun _ => 1)) small_jpg (default_image 0));
    try reflexivity; try apply good_lucky; try apply world0_inv; try (cbn [jw jh jcomp small_jpg default_image ial]; rewrite ?W32_val; lia).
  split; [reflexivity|]; left; exists [97]; reflexivity.
Qed.
Print Assumptions C159_jpeg_load_refuted.

(** ** C160: the same picture in a PNG file and in a JPEG file *)
Lemma shows_unique c a w h cc v1 v2 x y k : shows c a w h cc v1 -> shows c a w h cc v2 -> inside w h cc x y k -> v1 x y k = v2 x y k.
Proof.
  intros (i1 & E1 & _ & _ & _ & _ & P1) (i2 & E2 & _ & _ & _ & _ & P2) H. assert (i1 = i2) by congruence. subst i2.
  rewrite <- P1, <- P2 by exact H. reflexivity.
Qed.
Lemma shows_size c a w h cc v w' h' cc' v' : shows c a w h cc v -> shows c a w' h' cc' v' -> w = w' /\ h = h' /\ cc = cc'.
Proof. intros (i1 & E1 & _ & ? & ? & ? & _) (i2 & E2 & _ & ? & ? & ? & _). assert (i1 = i2) by congruence. subst. repeat split; assumption. Qed.
(** The same sizes and the same samples, gray or red, green, blue. *)
Definition same_file_picture (g : png) (j : jpg) : Prop :=
  gw g = jw j /\ gh g = jh j /\ jcomp j = (if png_gray g then 1 else 3) /\
  forall x y k, 0 <= x < jw j -> 0 <= y < jh j -> 0 <= k < jcomp j -> gpix g x y k = jpix j x y k.
Definition C160_claim : Prop := forall L u w p q a fp fq g j old w1 w2, lucky u -> is_png L p -> is_jpg L q ->
  wfs w p = Some fp -> wfs w q = Some fq -> pngDec L fp = Some g -> jpgDec L fq = Some j ->
  png_valid JPEG_MAX g -> same_file_picture g j -> cinv (wc w) -> cim (wc w) a = Some old -> ial old = 1 ->
  jw j * jcomp j * jh j < W32 ->
  FileLoad L u w p a = Ok w1 -> FileLoad L u w q a = Ok w2 ->
  exists val, shows (wc w1) a (jw j) (jh j) (jcomp j) val /\ shows (wc w2) a (jw j) (jh j) (jcomp j) val.
Lemma both_loads L u w p q a fp fq g j old : lucky u -> is_png L p -> is_jpg L q ->
  wfs w p = Some fp -> wfs w q = Some fq -> pngDec L fp = Some g -> jpgDec L fq = Some j ->
  png_valid JPEG_MAX g -> same_file_picture g j -> cinv (wc w) -> cim (wc w) a = Some old -> ial old = 1 -> jw j * jcomp j * jh j < W32 ->
  exists w1 w2, FileLoad L u w p a = Ok w1 /\ FileLoad L u w q a = Ok w2 /\
    shows (wc w1) a (jw j) (jh j) (jcomp j) (fun x y k => gpix g x y (if png_gray g then 0 else 2 - k)) /\
    shows (wc w2) a (jw j) (jh j) (jcomp j) (jpix j).
Proof.
  intros U Hp Hq Fp Fq Dp Dq V (S1 & S2 & S3 & S4) I Ea Al H32. pose proof V as (Vw & Vh & Vt). unfold JPEG_MAX in *.
  assert (0 < jcomp j < 256) by (rewrite S3; destruct (png_gray g); lia).
  assert (R : roundup (jw j * jcomp j) (ial old) = jw j * jcomp j) by (rewrite Al; unfold roundup; rewrite Z.div_1_r; lia).
  destruct (C158_png_load L u w p a fp g old) as (w1 & E1 & _ & Sh1); auto.
  { split; [lia|]. split; [lia|]. exact Vt. }
  destruct (C159_jpeg_load_partial L u w q a fq j old) as (w2 & E2 & _ & Sh2); auto; try lia; try (rewrite R; nia); try (rewrite W32_val; lia).
  exists w1, w2. split; [exact E1|]. split; [exact E2|]. split; [|exact Sh2]. rewrite S1, S2, <- S3 in Sh1. exact Sh1.
Qed.
(** Gray pictures. *)
Theorem C160_same_gray_partial L u w p q a fp fq g j old : lucky u -> is_png L p -> is_jpg L q ->
  wfs w p = Some fp -> wfs w q = Some fq -> pngDec L fp = Some g -> jpgDec L fq = Some j ->
  png_valid JPEG_MAX g -> same_file_picture g j -> cinv (wc w) -> cim (wc w) a = Some old -> ial old = 1 ->
  jw j * jcomp j * jh j < W32 -> jcomp j = 1 ->
  exists w1 w2, FileLoad L u w p a = Ok w1 /\ FileLoad L u w q a = Ok w2 /\
    shows (wc w1) a (jw j) (jh j) 1 (jpix j) /\ shows (wc w2) a (jw j) (jh j) 1 (jpix j).
Proof.
  intros U Hp Hq Fp Fq Dp Dq V S I Ea Al H32 C1.
  destruct (both_loads L u w p q a fp fq g j old) as (w1 & w2 & E1 & E2 & Sh1 & Sh2); auto.
  exists w1, w2. split; [exact E1|]. split; [exact E2|]. rewrite C1 in *. split; [|exact Sh2].
  destruct S as (S1 & S2 & S3 & S4). rewrite C1 in S3. destruct (png_gray g); [|discriminate].
  destruct Sh1 as (im & A1 & A2 & A3 & A4 & A5 & A6). exists im. repeat (split; [assumption|]).
  intros x y k Hi. rewrite A6 by exact Hi. unfold inside in Hi. replace k with 0 by lia. apply S4; lia.
Qed.
(** Colour pictures: blue and red are exchanged. *)
Definition red_png : png := mkPng 2 1 PNG_RGB 8 false (fun _ _ k => if k =? 0 then 255 else 0).
Definition red_jpg : jpg := mkJpg 2 1 3 (fun _ _ k => if k =? 0 then 255 else 0).
Definition gray_png : png := mkPng 2 1 PNG_GRAY 2 false (fun x _ _ => 85 * x).
Definition gray_jpg : jpg := mkJpg 2 1 1 (fun x _ _ => 85 * x).
Definition toy_two (g : png) (j : jpg) : libs := mkLibs true true 1000 (fun _ => Some g) (pngEnc toy) (fun _ => Some j) (jpgEnc toy).
Definition world3 : world := set_file world1 a_jpg (mkBlock 70 (fun _ => 1)).
Lemma a_png_two g j : is_png (toy_two g j) a_png.
Proof. split; [reflexivity|]. exists [97]. reflexivity. Qed.
Lemma a_jpg_two g j : is_jpg (toy_two g j) a_jpg.
Proof. split; [reflexivity|]. left. exists [97]. reflexivity. Qed.
Theorem C160_same_colour_refuted : ~ C160_claim.
Proof.
  intros H.
  destruct (both_loads (toy_two red_png red_jpg) good world3 a_png a_jpg 0 (mkBlock 70 (fun _ => 1)) (mkBlock 70 (fun _ => 1)) red_png red_jpg (default_image 0))
    as (w1 & w2 & E1 & E2 & Sh1 & Sh2); try reflexivity; try apply good_lucky; try apply a_png_two; try apply a_jpg_two; try apply world0_inv.
  { unfold png_valid, JPEG_MAX. cbn. split; [lia|]. split; [lia|]. tauto. }
  { repeat split. }
  destruct (H (toy_two red_png red_jpg) good world3 a_png a_jpg 0 (mkBlock 70 (fun _ => 1)) (mkBlock 70 (fun _ => 1)) red_png red_jpg (default_image 0) w1 w2)
    as (v & V1 & V2); try reflexivity; try apply good_lucky; try apply a_png_two; try apply a_jpg_two; try apply world0_inv; try assumption.
  { unfold png_valid, JPEG_MAX. cbn. split; [lia|]. split; [lia|]. tauto. }
  { repeat split. }
  pose proof (shows_unique _ _ _ _ _ _ _ 0 0 0 V1 Sh1 ltac:(cbn; unfold inside; lia)) as X1.
  pose proof (shows_unique _ _ _ _ _ _ _ 0 0 0 V2 Sh2 ltac:(cbn; unfold inside; lia)) as X2.
  cbn in X1, X2. congruence.
Qed.
Example C160_case : exists w1 w2, FileLoad (toy_two gray_png gray_jpg) good world3 a_png 0 = Ok w1 /\ FileLoad (toy_two gray_png gray_jpg) good world3 a_jpg 0 = Ok w2 /\
    shows (wc w1) 0 2 1 1 (fun x _ _ => 85 * x) /\ shows (wc w2) 0 2 1 1 (fun x _ _ => 85 * x).
Proof.
  apply (C160_same_gray_partial (toy_two gray_png gray_jpg) good world3 a_png a_jpg 0 (mkBlock 70 (fun _ => 1)) (mkBlock 70 (fun _ => 1)) gray_png gray_jpg (default_image 0));
    try reflexivity; try apply good_lucky; try apply a_png_two; try apply a_jpg_two; try apply world0_inv.
  - unfold png_valid, JPEG_MAX. cbn. split; [lia|]. split; [lia|]. tauto.
  - repeat split.
Qed.
Print Assumptions C160_same_gray_partial.
Print Assumptions C160_same_colour_refuted.

(** ** C161: the end of the name chooses the format *)
Theorem C161_choice L u w p a im x y sw sh junk :
  (is_jpg L p -> FileLoad L u w p a = JpegLoad L u w p a /\ FileSave L u w p im x y sw sh junk = JpegSave L u w p im x y sw sh) /\
  (is_png L p -> FileLoad L u w p a = PngLoad L u w p a /\ FileSave L u w p im x y sw sh junk = PngSave L u w p im x y sw sh junk) /\
  (~ is_jpg L p -> ~ is_png L p -> FileLoad L u w p a = BmpLoadFile u w p a /\ FileSave L u w p im x y sw sh junk = BmpSaveFile u w p im x y sw sh) /\
  ~ (is_jpg L p /\ is_png L p).
Proof.
  split; [intros H; split; [apply load_jpg|apply save_jpg]; exact H|]. split; [intros H; split; [apply load_png|apply save_png]; exact H|]. split.
  - intros J P. rewrite <- isJpeg_iff in J. rewrite <- isPng_iff in P. apply not_true_is_false in J, P.
    unfold FileLoad, FileSave. rewrite J, P. split; reflexivity.
  - intros (J & P). apply png_not_jpg in P. apply isJpeg_iff in J. congruence.
Qed.

Ltac solve_oi := unfold only_image; split; [reflexivity|]; split; [reflexivity|]; split; [reflexivity|]; split; assumption.
(** What Bitmap_Operation::Load returns is an object of its own. *)
Lemma bmp_shape f m nb junk m' im : BmpLoad f m nb junk = Ok (m', im) ->
  im = no_image \/ exists w h cc, im = mkImage w h cc 4 (row_size w cc 4) (Some (nb, 0)) 0.
Proof.
  unfold BmpLoad. destruct (blen f <? 20 + 56); [intros E; injection E as _ <-; left; reflexivity|].
  destruct (negb (le (bget f) 0 2 =? 19778) || (blen f <=? le (bget f) 10 4)); [intros E; injection E as _ <-; left; reflexivity|].
  destruct (dib_header f (le (bget f) 10 4)) as [[d|]| | |]; cbn [bind]; try discriminate; [|intros E; injection E as _ <-; left; reflexivity].
  destruct (dinvalid d); [intros E; injection E as _ <-; left; reflexivity|]. unfold load_data. cbv zeta.
  destruct (negb (blen f =? _)); [intros E; injection E as _ <-; left; reflexivity|].
  destruct (read_blocks _ _ _ _ _) as [[pm s]| | |]; cbn [bind]; try discriminate. unfold new_image.
  match goal with |- context [if ?b then 3 else dcc d] => generalize b as cv end. intros cv.
  destruct (read_blocks _ _ _ _ _) as [ms| | |]; cbn [bind]; try discriminate.
  match goal with |- (do m0 <- ?X; _) = _ -> _ => destruct X as [m1| | |]; cbn [bind]; try discriminate end.
  match goal with |- (do m0 <- ?X; _) = _ -> _ => destruct X as [m2| | |]; cbn [bind]; try discriminate end.
  intros E. right. exists (dwidth d), (dheight d), (if cv then 3 else dcc d).
  apply (f_equal (fun r => match r with Ok mi => snd mi | _ => im end)) in E. symmetry. exact E.
Qed.
Lemma no_image_ok : img_ok no_image.
Proof. constructor; cbn; try discriminate; lia. Qed.
Lemma bmp_img_ok f m nb junk m' im : BmpLoad f m nb junk = Ok (m', im) -> idata im = None \/ wf m' im -> img_ok im /\
  forall p, idata im = Some p -> p = (nb, 0).
Proof.
  intros E H. destruct (bmp_shape _ _ _ _ _ _ E) as [->|(w & h & cc & ->)]; [split; [apply no_image_ok|discriminate]|].
  split; [|cbn; intros p Ep; congruence]. destruct H as [H|H]; [discriminate|].
  pose proof (wf_w _ _ H) as Hw. pose proof (wf_h _ _ H) as Hh. pose proof (wf_cc _ _ H) as Hcc. pose proof (wf_rs _ _ H) as Hrs.
  pose proof (wf_bounds _ _ H) as (_ & _ & B3 & _). cbn [iw ih icc irs] in *. rewrite W32_val in *.
  constructor; cbn [iw ih icc irs ial idata]; try discriminate; try lia.
  intros p _. assert (0 < cc <= 4) by lia. assert (Hn : 0 < w * cc) by nia. assert (Hn2 : w * cc < 4294967296) by lia.
  assert (R : roundup (w * cc) 4 < W32).
  { rewrite W32_val. unfold row_size, u32, roundup in *. rewrite W32_val in *.
    rewrite (Z.mod_small (w * cc)) in * by lia. set (n := w * cc) in *. clearbody n.
    destruct (Z.eqb_spec (n mod 4) 0) as [Z0|Z0]; cbn [negb] in *; [lia|].
    clear H B3 Hw Hh Hcc. assert (Hq : 0 <= n / 4 < 1073741824) by lia. rewrite (Z.mod_small (n / 4 + 1)) in * by lia.
    assert (Q : n / 4 + 1 = 1073741824 \/ n / 4 + 1 < 1073741824) by lia. destruct Q as [Q|Q]; [rewrite Q in Hrs; change (1073741824 * 4 mod 4294967296) with 0 in Hrs; lia|lia]. }
  rewrite (row_size_ok w cc 4) in * by lia. rewrite W32_val in *. split; [lia|]. split; [lia|]. split; [reflexivity|exact R].
Qed.
(** A bitmap, whatever the name is: save and load gives the same picture. *)
Theorem C161_bitmap_round_trip L u w p im x y sw sh junk a old : ~ is_jpg L p -> ~ is_png L p -> p <> [] ->
  lucky u -> cinv (wc w) -> cim (wc w) a = Some old -> area (cmem (wc w)) im x y sw sh -> bytes (cmem (wc w)) im ->
  (forall o, 0 <= bget (cmem (wc w) (cnext (wc w))) o < 256) ->
  76 <= bmp_size sw sh (icc im) < W32 -> sw < 2147483648 ->
  exists w1 w2 f, FileSave L u w p im x y sw sh junk = Ok w1 /\ FileLoad L u w1 p a = Ok w2 /\
    only_file w w1 p f /\ only_image w1 w2 a /\
    shows (wc w2) a sw sh (icc im) (fun i j c => pixel (cmem (wc w)) im (x + i) (y + j) c).
Proof.
  intros J P Np (U1 & _) I Ea Ha Hb Hj Hs Hw.
  destruct (C161_choice L u w p a im x y sw sh junk) as (_ & _ & C3 & _). destruct (C3 J P) as (_ & ES).
  destruct (C62_round_trip (cmem (wc w)) im x y sw sh (cnext (wc w)) _ Ha Hb Hj Hs Hw) as (f & m' & im' & E1 & E2 & (S1 & S2 & S3 & S4) & Wf & Ob).
  pose proof Ha as (Hwf & Hr).
  destruct (bmp_img_ok _ _ _ _ _ _ E2 (or_intror Wf)) as (Hok & Hd).
  assert (Es : FileSave L u w p im x y sw sh junk = Ok (set_file w p f)).
  { rewrite ES. unfold BmpSaveFile. rewrite (valid_roi_ok _ _ _ _ _ _ Hwf Hr), U1, E1. reflexivity. }
  assert (Ef : wfs (set_file w p f) p = Some f) by (cbn; destruct (name_eqb_spec p p); congruence).
  destruct (move_in_ok (wc w) a old m' im' I Ea Hok Ob) as (c' & Ec & I' & Ea' & Fr & _ & _ & Hg).
  { intros q Hq. pose proof (Hd q Hq). subst q. split; [reflexivity|]. pose proof (wf_hi _ _ Wf) as Hz. unfold ibase in Hz. rewrite Hq in Hz. cbn [fst snd] in Hz. lia. }
  assert (El : FileLoad L u (set_file w p f) p a = Ok (set_c (set_file w p f) c')).
  { destruct (C161_choice L u (set_file w p f) p a im x y sw sh junk) as (_ & _ & C3' & _). rewrite (proj1 (C3' J P)). unfold BmpLoadFile.
    destruct p as [|p0 pt]; [contradiction|]. rewrite U1, Ef. change (wc (set_file w (p0 :: pt) f)) with (wc w). rewrite E2. cbn [lift_mem bind fst snd]. rewrite Ec. reflexivity. }
  exists (set_file w p f), (set_c (set_file w p f) c'), f. split; [exact Es|]. split; [exact El|]. split.
  { split; [exact Ef|]. split; [|repeat split]. intros q Hq. cbn. destruct (name_eqb_spec q p); [contradiction|reflexivity]. }
  split; [solve_oi|].
  exists im'. cbn [set_c wc]. split; [exact Ea'|]. split; [apply (wf_data _ _ Wf)|]. split; [exact S1|]. split; [exact S2|]. split; [exact S3|].
  intros i j c Hi. rewrite <- S4 by exact Hi. unfold pixel, px, ibase. destruct (idata im') as [q|] eqn:Eq; [|destruct (wf_data _ _ Wf); exact Eq].
  rewrite (Hd q eq_refl). cbn [fst snd]. unfold padd. cbn [fst snd]. apply Hg.
Qed.
Definition a_bmp : name := [97; 46; 98; 109; 112].
Lemma a_bmp_not L : ~ is_jpg L a_bmp /\ ~ is_png L a_bmp.
Proof.
  rewrite <- isJpeg_iff, <- isPng_iff. unfold isJpegFile, isPngFile. destruct (jpegOn L), (pngOn L); split; discriminate.
Qed.
Example C161_case : exists w1 w2 f, FileSave toy good world0 a_bmp (img 1 9 5 3 28) 2 1 5 4 (fun _ _ => 0) = Ok w1 /\
  FileLoad toy good w1 a_bmp 0 = Ok w2 /\ only_file world0 w1 a_bmp f /\ only_image w1 w2 0 /\
  shows (wc w2) 0 5 4 3 (fun i j c => pixel emem (img 1 9 5 3 28) (2 + i) (1 + j) c).
Proof.
  apply (C161_bitmap_round_trip toy good world0 a_bmp (img 1 9 5 3 28) 2 1 5 4 (fun _ _ => 0) 0 (default_image 0));
    try apply a_bmp_not; try apply good_lucky; try apply world0_inv; try reflexivity; try discriminate;
    change (cmem (wc world0)) with emem; try solve_area; try apply emem_bytes; try (vm_compute; intuition discriminate).
  intros o. cbn [emem bget]. apply Z.mod_pos_bound. lia.
Qed.
Print Assumptions C161_choice.
Print Assumptions C161_bitmap_round_trip.

(** ** C157: no call ends the process *)
Definition C157_claim : Prop := forall L u w p a old im x y sw sh junk w',
  cinv (wc w) -> cim (wc w) a = Some old -> area (cmem (wc w)) im x y sw sh ->
  FileLoad L u w p a <> Throw (Ended w') /\ FileSave L u w p im x y sw sh junk <> Throw (Ended w').
(** A file that is not a picture. *)
Theorem C157_load_refuted : ~ C157_claim.
Proof.
  intros H. destruct (H toy good (set_file world0 a_png no_bytes) a_png 0 (default_image 0) (img 1 9 5 3 28) 0 0 1 1 (fun _ _ => 0)
    (set_open (set_file world0 a_png no_bytes) 1)) as (A & _).
  - apply world0_inv.
  - reflexivity.
  - change (cmem (wc (set_file world0 a_png no_bytes))) with emem. solve_area.
  - apply A. reflexivity.
Qed.
(** An image of four channels that is saved as a JPEG file; the file stays there, empty. *)
Theorem C157_save_refuted : exists w', FileSave toy good world0 a_jpg (img 1 2 2 4 8) 0 0 2 2 (fun _ _ => 0) = Throw (Ended w') /\
  wfs w' a_jpg = Some no_bytes /\ area emem (img 1 2 2 4 8) 0 0 2 2.
Proof. eexists. split; [reflexivity|]. split; [reflexivity|]. solve_area. Qed.

(** Whatever the regions and the system are, Save returns or throws, if the libraries accept the
    sizes and the channels; an exception that is not the one of C162 leaves all as it was. *)
Definition saveable (L : libs) (p : name) (im : image) (sw sh : Z) : Prop :=
  (is_jpg L p -> sw <= JPEG_MAX /\ sh <= JPEG_MAX /\ icc im <> 4) /\
  (is_png L p -> sw <= pngMax L /\ sh <= pngMax L) /\
  (~ is_jpg L p -> ~ is_png L p -> bmp_size sw sh (icc im) < W32).
Lemma name_cases L p : is_jpg L p \/ is_png L p \/ (~ is_jpg L p /\ ~ is_png L p).
Proof.
  rewrite <- isJpeg_iff, <- isPng_iff. destruct (isJpegFile L p); [auto|]. destruct (isPngFile L p); [auto|]. right. right. split; discriminate.
Qed.
Lemma save_cases L u w p im x y sw sh junk : wf (cmem (wc w)) im -> in_u32 x -> in_u32 y -> in_u32 sw -> in_u32 sh -> saveable L p im sw sh ->
  FileSave L u w p im x y sw sh junk = Throw (Exn w) \/
  (exists w' f, FileSave L u w p im x y sw sh junk = Ok w' /\ only_file w w' p f /\ roi_in im x y sw sh /\ canOpen u = true) \/
  (is_png L p /\ okStruct u && okInfo u = false /\
   FileSave L u w p im x y sw sh junk = Throw (Exn (set_open (set_file w p no_bytes) (wopen w + 1)))).
Proof.
  intros Hwf X Y SW SH (S1 & S2 & S3).
  destruct (valid_roi im x y sw sh) eqn:V.
  2:{ left. unfold FileSave, JpegSave, PngSave, BmpSaveFile. rewrite V. cbn [negb].
      destruct (isJpegFile L p); [destruct (jpegOn L); reflexivity|]. destruct (isPngFile L p); [destruct (pngOn L); reflexivity|]. reflexivity. }
  pose proof (wf_bounds _ _ Hwf) as (B1 & B2 & _).
  pose proof V as V'. apply valid_roi_true in V'; try assumption; try lia. destruct V' as (_ & _ & Hr).
  assert (Ha : area (cmem (wc w)) im x y sw sh) by (split; assumption).
  destruct (canOpen u) eqn:U1.
  2:{ left. unfold FileSave, JpegSave, PngSave, BmpSaveFile, open_write. rewrite V, U1. cbn [negb].
      destruct (isJpegFile L p); [destruct (jpegOn L); reflexivity|]. destruct (isPngFile L p); [destruct (pngOn L); reflexivity|]. reflexivity. }
  destruct (name_cases L p) as [J|[P|(NJ & NP)]].
  - right. left. destruct (S1 J) as (L1 & L2 & L4).
    assert (Ha0 : area (cmem (wc w)) im 0 0 sw sh) by (split; [exact Hwf|]; destruct Hr; constructor; lia).
    destruct (JpegSave_ok L (mkLuck true true true) w p im sw sh x y) as (w' & rows & E & Of & _); auto; [repeat split|apply J|].
    exists w', (jpgEnc L sw sh (icc im) (wquality w) rows). rewrite (save_jpg _ _ _ _ _ _ _ _ _ _ J).
    split; [|split; [exact Of|split; [exact Hr|reflexivity]]]. rewrite <- E. unfold JpegSave, open_write. rewrite U1. reflexivity.
  - destruct (S2 P) as (L1 & L2). rewrite (save_png _ _ _ _ _ _ _ _ _ _ P).
    destruct (okStruct u && okInfo u) eqn:U2.
    + apply andb_prop in U2 as (U2 & U3). right. left.
      destruct (PngSave_ok L u w p im x y sw sh junk) as (w' & rows & E & Of & _); auto; [repeat split; assumption|apply P|].
      eexists w', _. split; [exact E|]. split; [exact Of|]. split; [exact Hr|reflexivity].
    + right. right. split; [exact P|]. split; [reflexivity|]. unfold PngSave, open_write. rewrite (proj1 P), V, U1. cbn [negb].
      destruct (okStruct u); cbn [negb andb] in *; [|reflexivity]. rewrite U2. reflexivity.
  - right. left. specialize (S3 NJ NP). unfold bmp_size in S3. rewrite row_bytes4 in S3.
    destruct (C161_choice L u w p 0 im x y sw sh junk) as (_ & _ & C3 & _). rewrite (proj2 (C3 NJ NP)).
    destruct (BmpSave_ok (cmem (wc w)) im x y sw sh Ha) as (f & E & _); [destruct (icc im =? 1); lia|].
    exists (set_file w p f), f. unfold BmpSaveFile. rewrite V, U1, E. cbn [negb lift_mem bind].
    split; [reflexivity|]. split; [|split; [exact Hr|reflexivity]]. unfold only_file. cbn [set_file wfs wopen wquality wc].
    split; [destruct (name_eqb_spec p p); congruence|]. split; [|repeat split]. intros q Hq. destruct (name_eqb_spec q p); [contradiction|reflexivity].
Qed.
Theorem C157_save_partial L u w p im x y sw sh junk : wf (cmem (wc w)) im -> in_u32 x -> in_u32 y -> in_u32 sw -> in_u32 sh -> saveable L p im sw sh ->
  exists w', FileSave L u w p im x y sw sh junk = Ok w' \/ FileSave L u w p im x y sw sh junk = Throw (Exn w').
Proof.
  intros Hwf X Y SW SH S. destruct (save_cases L u w p im x y sw sh junk Hwf X Y SW SH S) as [E|[(w' & f & E & _)|(_ & _ & E)]]; eauto.
Qed.
(** Load returns or throws for files that are absent or that the libraries can read (bitmaps: the
    files of C65); an exception changes nothing, and otherwise only [a] has changed. *)
Definition loadable (L : libs) (w : world) (p : name) (old : image) : Prop := forall f, wfs w p = Some f ->
  (is_png L p -> exists g, pngDec L f = Some g /\ png_valid 1431655765 g) /\
  (is_jpg L p -> exists j, jpgDec L f = Some j /\ 0 < jw j /\ 0 < jh j < W32 /\ 0 < jcomp j < 256 /\ ial old < 256 /\
     roundup (jw j * jcomp j) (ial old) < W32 /\ roundup (jw j * jcomp j) (ial old) * (jh j - 1) < W32) /\
  (~ is_jpg L p -> ~ is_png L p -> 0 <= blen f /\ byte_file f /\ (forall o, 0 <= bget (cmem (wc w) (cnext (wc w))) o < 256) /\
     (bitmap_headers f -> 4 * stated_width f * stated_height f < W32 /\ stated_height f <> 2147483648)).
Lemma nothing_ok w a old : cinv (wc w) -> cim (wc w) a = Some old ->
  exists c', move_in (wc w) a (cmem (wc w)) no_image = Ok c' /\ cinv c' /\ frame (wc w) c' (eq a) /\ cim c' a = Some no_image.
Proof.
  intros I Ea. destruct (move_in_ok (wc w) a old (cmem (wc w)) no_image I Ea no_image_ok) as (c' & E & I' & Ea' & F & _).
  - intros b _. split; [reflexivity|]. reflexivity.
  - discriminate.
  - exists c'. auto.
Qed.
Theorem C157_load_partial L u w p a old : cinv (wc w) -> cim (wc w) a = Some old -> loadable L w p old ->
  FileLoad L u w p a = Throw (Exn w) \/ exists w', FileLoad L u w p a = Ok w' /\ only_image w w' a.
Proof.
  intros I Ea Hl. destruct p as [|p0 pt].
  { left. unfold FileLoad, isJpegFile, isPngFile, isSameFileExtension. cbn. destruct (jpegOn L), (pngOn L); reflexivity. }
  set (p := p0 :: pt) in *.
  destruct (nothing_ok w a old I Ea) as (c0 & E0 & I0 & F0 & _).
  destruct (name_cases L p) as [J|[P|(NJ & NP)]].
  - destruct (canOpen u) eqn:U1.
    2:{ left. rewrite (load_jpg _ _ _ _ _ J). unfold JpegLoad, open_read. rewrite (proj1 J), U1. reflexivity. }
    destruct (wfs w p) as [f|] eqn:Ef.
    2:{ left. rewrite (load_jpg _ _ _ _ _ J). unfold JpegLoad, open_read. rewrite (proj1 J), U1, Ef. reflexivity. }
    right. destruct (Hl f Ef) as (_ & HJ & _). destruct (HJ J) as (j & Dj & J1 & J2 & J3 & J4 & J5 & J6).
    destruct (C159_jpeg_load_partial L (mkLuck true true true) w p a f j old) as (w' & E & Oi & _); auto; [repeat split|].
    exists w'. split; [|exact Oi]. rewrite <- E, !(load_jpg _ _ _ _ _ J). unfold JpegLoad, open_read. rewrite U1. reflexivity.
  - right. assert (N1 : forall w1, wfs w1 = wfs w -> wopen w1 = wopen w -> wquality w1 = wquality w -> wc w1 = wc w ->
      exists w', (do c <- lift w1 (move_in (wc w1) a (cmem (wc w1)) no_image); Ok (set_c w1 c)) = Ok w' /\ only_image w w' a).
    { intros w1 Q1 Q2 Q3 Q4. rewrite Q4, E0. cbn [lift bind]. eexists. split; [reflexivity|]. unfold only_image, set_c. cbn [wfs wopen wquality wc]. auto. }
    rewrite (load_png _ _ _ _ _ P).
    destruct (okStruct u && okInfo u && canOpen u) eqn:U.
    + apply andb_prop in U as (U & U1). apply andb_prop in U as (U2 & U3).
      destruct (wfs w p) as [f|] eqn:Ef.
      * destruct (Hl f Ef) as (HP & _). destruct (HP P) as (g & Dg & Vg).
        destruct (C158_png_load L u w p a f g old) as (w' & E & Oi & _); auto; [repeat split; assumption|].
        exists w'. split; [|exact Oi]. rewrite <- E, (load_png _ _ _ _ _ P). reflexivity.
      * unfold PngLoad, open_read. rewrite (proj1 P), U1, Ef. cbn [negb]. apply N1; reflexivity.
    + unfold PngLoad, open_read. rewrite (proj1 P). cbn [negb]. destruct (canOpen u); [|apply N1; reflexivity].
      destruct (wfs w p) as [f|] eqn:Ef; [|apply N1; reflexivity].
      assert (N2 : exists w', (do c <- lift (fclose (set_open w (wopen w + 1))) (move_in (wc (fclose (set_open w (wopen w + 1)))) a (cmem (wc (fclose (set_open w (wopen w + 1))))) no_image);
         Ok (set_c (fclose (set_open w (wopen w + 1))) c)) = Ok w' /\ only_image w w' a) by (apply N1; try reflexivity; cbn; lia).
      destruct (okStruct u); cbn [negb andb] in *; [|exact N2]. destruct (okInfo u); cbn [negb andb] in *; [discriminate|exact N2].
  - right. destruct (C161_choice L u w p a no_image 0 0 0 0 (fun _ _ => 0)) as (_ & _ & C3 & _). rewrite (proj1 (C3 NJ NP)).
    unfold BmpLoadFile. unfold p at 1.
    assert (N : exists w', (do c <- lift w (move_in (wc w) a (cmem (wc w)) no_image); Ok (set_c w c)) = Ok w' /\ only_image w w' a).
    { rewrite E0. eexists. split; [reflexivity|]. solve_oi. }
    destruct (canOpen u); [|exact N]. destruct (wfs w p) as [f|] eqn:Ef; [|exact N].
    destruct (Hl f Ef) as (_ & _ & HB). destruct (HB NJ NP) as (B1 & B2 & B3 & B4).
    destruct (C65_safe_partial f (cmem (wc w)) (cnext (wc w)) (bget (cmem (wc w) (cnext (wc w)))) B1 B2 B3 B4) as ((m1 & i1 & E1 & Ob & Od) & m2 & i2 & E2 & Hw).
    assert (Q : m2 = m1 /\ i2 = i1) by (split; congruence). destruct Q as (-> & ->).
    destruct (bmp_img_ok _ _ _ _ _ _ E1 Hw) as (Hok & Hd). rewrite E1. cbn [lift_mem bind fst snd].
    destruct (move_in_ok (wc w) a old m1 i1 I Ea Hok Ob) as (c' & Ec & I' & Ea' & Fr & _).
    { intros q Hq. split; [apply Hd; exact Hq|]. destruct Od as [Od|(_ & Od)]; [congruence|]. rewrite Od. lia. }
    rewrite Ec. cbn [lift bind]. eexists. split; [reflexivity|]. solve_oi.
Qed.
Example C157_save_case : saveable toy a_jpg (img 1 9 5 3 28) 5 4 /\ saveable toy a_bmp (img 1 9 5 3 28) 5 4.
Proof.
  split; (split; [intros _; unfold JPEG_MAX; cbn; lia|]; split; [intros _; cbn; lia|]; intros _ _; vm_compute; reflexivity).
Qed.
Example C157_load_case : FileLoad toy good world0 a_jpg 0 = Throw (Exn world0) /\ loadable toy world0 a_jpg (default_image 0) /\
  (exists w', FileLoad toy good world0 a_png 0 = Ok w') /\ loadable (toy_two gray_png gray_jpg) world3 a_png (default_image 0).
Proof.
  split; [reflexivity|]. split; [intros f E; discriminate|]. split; [eexists; reflexivity|]. intros f _. split.
  - intros _. exists gray_png. split; [reflexivity|]. unfold png_valid. cbn. split; [lia|]. split; [lia|]. tauto.
  - split.
    + intros J. destruct (C161_choice (toy_two gray_png gray_jpg) good world3 a_png 0 no_image 0 0 0 0 (fun _ _ => 0)) as (_ & _ & _ & N). destruct N. split; [exact J|apply a_png_two].
    + intros _ N. destruct N. apply a_png_two.
Qed.
Print Assumptions C157_load_refuted.
Print Assumptions C157_save_refuted.
Print Assumptions C157_save_partial.
Print Assumptions C157_load_partial.

(** ** C162: a failed Save leaves the files as they were *)
Definition C162_claim : Prop := forall L u w p im x y sw sh junk w',
  wf (cmem (wc w)) im -> in_u32 x -> in_u32 y -> in_u32 sw -> in_u32 sh -> saveable L p im sw sh ->
  FileSave L u w p im x y sw sh junk = Throw (Exn w') -> wfs w' p = wfs w p /\ wopen w' = wopen w.
(** Every exception but the one for the structures of libpng. *)
Theorem C162_failed_save_partial L u w p im x y sw sh junk w' :
  wf (cmem (wc w)) im -> in_u32 x -> in_u32 y -> in_u32 sw -> in_u32 sh -> saveable L p im sw sh ->
  (is_png L p -> okStruct u = true /\ okInfo u = true) ->
  FileSave L u w p im x y sw sh junk = Throw (Exn w') -> w' = w.
Proof.
  intros Hwf X Y SW SH S U E. destruct (save_cases L u w p im x y sw sh junk Hwf X Y SW SH S) as [E'|[(w1 & f & E' & _)|(P & U' & _)]].
  - congruence.
  - congruence.
  - destruct (U P) as (U1 & U2). rewrite U1, U2 in U'. discriminate.
Qed.
(** Save succeeds exactly for the regions inside the image, if the file can be opened. *)
Theorem C162_save_succeeds L u w p im x y sw sh junk :
  wf (cmem (wc w)) im -> in_u32 x -> in_u32 y -> in_u32 sw -> in_u32 sh -> saveable L p im sw sh -> lucky u ->
  ((exists w', FileSave L u w p im x y sw sh junk = Ok w') <-> roi_in im x y sw sh).
Proof.
  intros Hwf X Y SW SH S (U1 & U2 & U3). destruct (save_cases L u w p im x y sw sh junk Hwf X Y SW SH S) as [E|[(w1 & f & E & _ & Hr & _)|(P & U' & _)]].
  - split; [intros (w' & E'); congruence|]. intros Hr. exfalso.
    assert (V : valid_roi im x y sw sh = true) by (apply (valid_roi_ok _ _ _ _ _ _ Hwf Hr)).
    destruct (name_cases L p) as [J|[P|(NJ & NP)]].
    + destruct S as (S1 & _). destruct (S1 J) as (L1 & L2 & L4).
      assert (Ha0 : area (cmem (wc w)) im 0 0 sw sh) by (split; [exact Hwf|]; destruct Hr; constructor; lia).
      destruct (JpegSave_ok L u w p im sw sh x y) as (w' & rows & E1 & _); auto; [repeat split; assumption|apply J|split; assumption|].
      rewrite (save_jpg _ _ _ _ _ _ _ _ _ _ J) in E. congruence.
    + destruct S as (_ & S2 & _). destruct (S2 P) as (L1 & L2).
      destruct (PngSave_ok L u w p im x y sw sh junk) as (w' & rows & E1 & _); auto; [repeat split; assumption|apply P|split; assumption|].
      rewrite (save_png _ _ _ _ _ _ _ _ _ _ P) in E. congruence.
    + destruct S as (_ & _ & S3). specialize (S3 NJ NP). unfold bmp_size in S3. rewrite row_bytes4 in S3.
      destruct (C161_choice L u w p 0 im x y sw sh junk) as (_ & _ & C3 & _). rewrite (proj2 (C3 NJ NP)) in E.
      destruct (BmpSave_ok (cmem (wc w)) im x y sw sh) as (f & E1 & _); [split; assumption|destruct (icc im =? 1); lia|].
      unfold BmpSaveFile in E. rewrite V, U1, E1 in E. discriminate.
  - split; [intros _; exact Hr|]. intros _. eauto.
  - rewrite U2, U3 in U'. discriminate.
Qed.
(** libpng has no memory for its structure: the old file is gone and stays open. *)
Theorem C162_failed_save_refuted : ~ C162_claim.
Proof.
  intros H. destruct (H toy (mkLuck true false true) world1 a_png (img 1 9 5 3 28) 0 0 5 4 (fun _ _ => 0) (set_open (set_file world1 a_png no_bytes) 1)) as (A & B).
  - change (cmem (wc world1)) with emem. solve_wf.
  - unfold in_u32. rewrite W32_val. lia.
  - unfold in_u32. rewrite W32_val. lia.
  - unfold in_u32. rewrite W32_val. lia.
  - unfold in_u32. rewrite W32_val. lia.
  - split; [intros _; unfold JPEG_MAX; cbn; lia|]. split; [intros _; cbn; lia|]. intros _ _. vm_compute. reflexivity.
  - reflexivity.
  - discriminate B.
Qed.
Example C162_case : FileSave toy good world1 a_png (img 1 9 5 3 28) 5 0 5 4 (fun _ _ => 0) = Throw (Exn world1) /\
  saveable toy a_png (img 1 9 5 3 28) 5 4 /\ wf (cmem (wc world1)) (img 1 9 5 3 28).
Proof.
  split; [reflexivity|]. split; [|change (cmem (wc world1)) with emem; solve_wf].
  split; [intros _; unfold JPEG_MAX; cbn; lia|]. split; [intros _; cbn; lia|]. intros _ _. vm_compute. reflexivity.
Qed.
Print Assumptions C162_failed_save_partial.
Print Assumptions C162_save_succeeds.
Print Assumptions C162_failed_save_refuted.
