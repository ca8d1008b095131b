(** Properties of bitmap and raw files: C62 to C67. *)
From Coq Require Import ZArith List Bool Lia.
From Verif Require Import Base Image Spec BaseProofs ImgFun ImgLemmas ImgProofs ReduceProofs PropsA.
From Verif Require Import Container ContainerProofs File FileProofs FileSave RawProofs.
Import ListNotations.
Open Scope Z_scope.
Ltac Zify.zify_post_hook ::= Z.div_mod_to_equations.

(** ** What a bitmap file is *)

(** Numbers in a file: lowest byte first. *)
Definition num16 (f : file) (o : Z) : Z := bget f o + 256 * bget f (o + 1).
Definition num32 (f : file) (o : Z) : Z :=
  bget f o + 256 * bget f (o + 1) + 65536 * bget f (o + 2) + 16777216 * bget f (o + 3).
(** A row of samples in the file: its bytes, rounded up to a multiple of 4. *)
Definition row_bytes (w cc : Z) : Z := 4 * ((w * cc + 3) / 4).
(** Byte [k] of the palette in which entry [v] is the colour (v, v, v, 0). *)
Definition gray_entry (k : Z) : Z := if k mod 4 =? 3 then 0 else k / 4.
(** Every byte of the file is a byte. *)
Definition byte_file (f : file) : Prop := forall o, 0 <= o < blen f -> 0 <= bget f o < 256.

(** The picture in [im'] is the region of [im]. *)
Definition same_picture (m : mem) (im : image) (x y w h : Z) (m' : mem) (im' : image) : Prop :=
  iw im' = w /\ ih im' = h /\ icc im' = icc im /\
  forall i j c, inside w h (icc im) i j c -> pixel m' im' i j c = pixel m im (x + i) (y + j) c.
(** No memory but block [nb], the new one, has changed. *)
Definition only_block (m m' : mem) (nb : Z) : Prop :=
  forall b, b <> nb -> len m' b = len m b /\ forall o, get m' (b, o) = get m (b, o).

Lemma le2 f o : le (bget f) o 2 = num16 f o.
Proof. unfold num16. cbn [le]. lia. Qed.
Lemma le4 f o : le (bget f) o 4 = num32 f o.
Proof.
  unfold num32. cbn [le]. replace (o + 1 + 1) with (o + 2) by lia. replace (o + 2 + 1) with (o + 3) by lia. lia.
Qed.
Lemma row_bytes4 w cc : row_bytes w cc = row4 w cc.
Proof. unfold row_bytes, row4, roundup. lia. Qed.

(** ** C62 *)

(** Size of the file of a region. *)
Definition bmp_size (w h cc : Z) : Z := 54 + (if cc =? 1 then 1024 else 0) + h * row_bytes w cc.

Lemma le_bytes_range n : forall v k, 0 <= nth k (le_bytes n v) 0 < 256.
Proof.
  induction n as [|n IH]; intros v k; cbn [le_bytes]; destruct k as [|k]; cbn [nth]; auto; try lia; apply Z.mod_pos_bound; lia.
Qed.

Definition all_bytes (l : list Z) : Prop := forall k, 0 <= nth k l 0 < 256.
Lemma all_bytes_app a b : all_bytes a -> all_bytes b -> all_bytes (a ++ b).
Proof.
  intros A B k. destruct (Nat.lt_ge_cases k (length a)); [rewrite app_nth1 by assumption; apply A|rewrite app_nth2 by assumption; apply B].
Qed.
Lemma headers_bytes a b w h c s : all_bytes (headers a b w h c s).
Proof.
  unfold headers, file_header, dib_bytes.
  repeat apply all_bytes_app; intros k; apply le_bytes_range.
Qed.

Lemma sample_byte m im x y w h i j : area m im x y w h -> bytes m im -> 0 <= i < w * icc im -> 0 <= j < h ->
  0 <= get m (padd (origin im x y (icc im)) (j * irs im + i)) < 256.
Proof.
  intros (Hwf & Hr) Hb Hi Hj. pose proof (wf_cc_pos _ _ Hwf) as Hc. destruct Hr as [].
  destruct (split_index (icc im) i w ltac:(lia) Hi) as (A & B & C). rewrite C, <- px_origin. apply Hb; lia.
Qed.

Lemma saved_bytes m im x y w h f : area m im x y w h -> bytes m im -> saved m im x y w h f -> byte_file f.
Proof.
  intros Ha Hb [Hl Hh Hg Hp] o Ho.
  set (cc := icc im) in *. set (ps := if cc =? 1 then 1024 else 0) in *. set (L := row4 w cc) in *.
  destruct (Z.lt_ge_cases o 54); [rewrite Hh by lia; apply headers_bytes|].
  destruct (Z.lt_ge_cases o (54 + ps)).
  - assert (C : cc = 1 /\ ps = 1024). { unfold ps in *. destruct (Z.eqb_spec cc 1); lia. } destruct C as [C Eps].
    specialize (Hg C (o - 54) ltac:(lia)). replace (54 + (o - 54)) with o in Hg by lia. rewrite Hg.
    unfold gray_byte. destruct (_ =? 3); lia.
  - pose proof (wf_cc_pos _ _ (proj1 Ha)) as Hc. fold cc in Hc. pose proof (roi_w _ _ _ _ _ (proj2 Ha)). pose proof (roi_h _ _ _ _ _ (proj2 Ha)).
    assert (HL : 0 < L) by (unfold L, row4, roundup; nia).
    set (k := o - (54 + ps)). assert (Hk : 0 <= k < h * L) by (unfold k; lia).
    pose proof (Z.div_mod k L ltac:(lia)) as D. pose proof (Z.mod_pos_bound k L HL) as M.
    assert (0 <= k / L < h). { split; [apply Z.div_pos; lia|apply Z.div_lt_upper_bound; lia]. }
    specialize (Hp (k / L) (k mod L) ltac:(lia) ltac:(lia)).
    replace (54 + ps + (k / L * L + k mod L)) with o in Hp by (unfold k in *; lia). rewrite Hp.
    destruct (Z.ltb_spec (k mod L) (w * cc)); [|lia]. apply (sample_byte m im x y w h); auto; fold cc; lia.
Qed.

(** The file has the layout of a bitmap: headers, gray palette for one channel, rows from the
    lowest one up, filled up with zeros. *)
Theorem C62_file_format m im x y w h :
  area m im x y w h -> bmp_size w h (icc im) < W32 ->
  exists f, BmpSave m im x y w h = Ok f /\
    blen f = bmp_size w h (icc im) /\ num16 f 0 = 19778 /\ num32 f 2 = blen f /\ num32 f 6 = 0 /\
    num32 f 10 = 54 + (if icc im =? 1 then 1024 else 0) /\
    num32 f 14 = 40 /\ num32 f 18 = w /\ num32 f 22 = h /\ num16 f 26 = 1 /\ num16 f 28 = 8 * icc im /\
    num32 f 30 = 0 /\ num32 f 34 = h * row_bytes w (icc im) /\
    num32 f 38 = 0 /\ num32 f 42 = 0 /\ num32 f 46 = 0 /\ num32 f 50 = 0 /\
    (icc im = 1 -> forall k, 0 <= k < 1024 -> bget f (54 + k) = gray_entry k) /\
    (forall i j c, inside w h (icc im) i j c ->
       bget f (num32 f 10 + (h - 1 - j) * row_bytes w (icc im) + i * icc im + c) = pixel m im (x + i) (y + j) c) /\
    (forall j k, 0 <= j < h -> w * icc im <= k < row_bytes w (icc im) ->
       bget f (num32 f 10 + j * row_bytes w (icc im) + k) = 0).
Proof.
  intros Ha Hs. pose proof Ha as (Hwf & Hr). unfold bmp_size in *. rewrite row_bytes4 in *.
  pose proof (wf_cc_pos _ _ Hwf) as Hc1. pose proof (wf_bounds _ _ Hwf) as (B1 & B2 & B3 & B4). pose proof Hr as [Rx Ry Rw Rh Rxw Ryh].
  destruct (BmpSave_ok m im x y w h Ha) as (f & E & [Hl Hh Hg Hp]).
  { destruct (icc im =? 1); lia. }
  exists f. split; [exact E|]. split; [exact Hl|].
  set (cc := icc im) in *. set (ps := if cc =? 1 then 1024 else 0) in *. set (L := row4 w cc) in *.
  assert (Hps : ps = 0 \/ ps = 1024) by (unfold ps; destruct (cc =? 1); auto).
  assert (HL : 0 < L /\ w * cc <= L) by (unfold L, row4, roundup; nia).
  assert (Hsz : 0 <= h * L) by nia.
  destruct (fields f (u32 (54 + ps + h * L)) (54 + ps) w h cc (h * L)) as (F0 & F10 & F14 & F18 & F22 & F26 & F28 & F34);
    [exact Hh|lia|lia|lia|lia|lia|].
  rewrite le2 in *. rewrite le4 in *.
  assert (Z4 : forall o, (o = 6 \/ o = 30 \/ o = 38 \/ o = 42 \/ o = 46 \/ o = 50) -> num32 f o = 0).
  { intros o Ho. unfold num32. destruct Ho as [->|[->|[->|[->|[->| ->]]]]]; rewrite !Hh by lia; reflexivity. }
  assert (F2 : num32 f 2 = 54 + ps + h * L).
  { rewrite <- le4. rewrite (u32_small (54 + ps + h * L)) in Hh by lia.
    apply le_field; [rewrite pow4; lia|]. intros k Hk. rewrite Hh by lia.
    do 4 (destruct k as [|k]; [reflexivity|]). exfalso. lia. }
  split; [exact F0|]. split; [lia|]. split; [apply Z4; auto|]. split; [exact F10|]. split; [exact F14|].
  split; [exact F18|]. split; [exact F22|]. split; [exact F26|]. split; [lia|]. split; [apply Z4; auto|].
  split; [exact F34|]. split; [apply Z4; auto|]. split; [apply Z4; auto|]. split; [apply Z4; auto 10|]. split; [apply Z4; auto 10|].
  split; [exact Hg|]. rewrite F10. split.
  - intros i j c (Hi & Hj & Hc). unfold pixel. rewrite px_origin. fold cc.
    pose proof (join_index cc i c w Hi Hc) as J.
    specialize (Hp (h - 1 - j) (i * cc + c) ltac:(lia) ltac:(lia)).
    rewrite (proj2 (Z.ltb_lt (i * cc + c) (w * cc))) in Hp by lia.
    replace (h - 1 - (h - 1 - j)) with j in Hp by lia. rewrite <- Hp. f_equal. lia.
  - intros j k Hj Hk. specialize (Hp j k Hj ltac:(lia)). rewrite (proj2 (Z.ltb_ge k (w * cc))) in Hp by lia. rewrite <- Hp. f_equal. lia.
Qed.
Example C62_format_case : exists f, BmpSave emem (img 1 9 5 3 28) 2 1 5 4 = Ok f /\
  blen f = 118 /\ bget f 54 = pixel emem (img 1 9 5 3 28) 2 4 0 /\ bget f (54 + 48 + 7) = pixel emem (img 1 9 5 3 28) 4 1 1.
Proof.
  destruct (C62_file_format emem (img 1 9 5 3 28) 2 1 5 4) as (f & E & L & _ & _ & _ & F10 & _ & _ & _ & _ & _ & _ & _ & _ & _ & _ & _ & _ & P & _).
  { solve_area. }
  { vm_compute. reflexivity. }
  cbn [icc img Z.eqb Pos.eqb] in *. exists f. split; [exact E|]. split; [rewrite L; reflexivity|]. rewrite F10 in P. split.
  - specialize (P 0 3 0 ltac:(unfold inside; lia)). exact P.
  - specialize (P 2 0 1 ltac:(unfold inside; lia)). exact P.
Qed.
Print Assumptions C62_file_format.

(** Load returns what Save has written, for every region whose file has at least 76 bytes. *)
Theorem C62_round_trip m im x y w h nb junk :
  area m im x y w h -> bytes m im -> (forall o, 0 <= junk o < 256) ->
  76 <= bmp_size w h (icc im) < W32 -> w < 2147483648 ->
  exists f m' im', BmpSave m im x y w h = Ok f /\ BmpLoad f m nb junk = Ok (m', im') /\
    same_picture m im x y w h m' im' /\ wf m' im' /\ only_block m m' nb.
Proof.
  intros Ha Hb Hj Hs Hw. pose proof Ha as (Hwf & Hr). unfold bmp_size in *. rewrite row_bytes4 in *.
  pose proof (wf_cc _ _ Hwf) as Hcc. pose proof (wf_cc_pos _ _ Hwf) as Hc1. pose proof Hr as [Rx Ry Rw Rh Rxw Ryh].
  set (cc := icc im) in *.
  assert (Hsz : h * row4 w cc < W32) by (destruct (cc =? 1); lia).
  destruct (BmpSave_ok m im x y w h Ha Hsz) as (f & E & Sv).
  pose proof (saved_bytes _ _ _ _ _ _ _ Ha Hb Sv) as Bf.
  pose proof (sv_len _ _ _ _ _ _ _ Sv) as Hl. fold cc in Hl.
  destruct (saved_headers m im x y w h f Ha Sv Hw ltac:(lia)) as (F0 & F10 & FD). fold cc in F10, FD.
  set (d := mkDib w h cc 40 true false) in *.
  set (ps := if cc =? 1 then 1024 else 0) in *.
  assert (Hps : ps = 0 /\ cc <> 1 \/ ps = 1024 /\ cc = 1) by (unfold ps; destruct (Z.eqb_spec cc 1); auto).
  assert (L1 : 0 < row4 w cc /\ w * cc <= row4 w cc) by (unfold row4, roundup; nia).
  assert (Hpos : 0 < h * row4 w cc) by nia.
  assert (Ld : BmpLoad f m nb junk = load_data f m nb junk (54 + ps) d).
  { unfold BmpLoad. rewrite (proj2 (Z.ltb_ge (blen f) (20 + 56))) by lia. rewrite F0, F10.
    rewrite (proj2 (Z.leb_gt (blen f) (54 + ps))) by lia. cbn [Z.eqb Pos.eqb negb orb]. rewrite FD. reflexivity. }
  rewrite W32_val in *.
  destruct (load_data_ok f m nb junk (54 + ps) d) as [[N _]|(m' & im' & E2 & [l1 l2 l3 l4 l5 l6 l7 l8])];
    try (unfold d; cbn [dwidth dheight dcc dsize]); try rewrite W32_val; auto; try lia.
  { intros C _ G. exfalso. apply G. apply (sv_gray _ _ _ _ _ _ _ Sv C). }
  { unfold d in N; cbn [dwidth dheight dcc] in N. rewrite W32_val in N. lia. }
  unfold d in *. cbn [dwidth dheight dcc dsize dflipped] in *. unfold stored_row in l8. cbn [dflipped dheight] in l8.
  exists f, m', im'. split; [exact E|]. split; [rewrite Ld; exact E2|].
  destruct l8 as [(Ec & _ & G)|(_ & C & _ & NG & _)].
  2:{ exfalso. apply NG. apply (sv_gray _ _ _ _ _ _ _ Sv C). }
  rewrite Ec in l5. split; [|split].
  - split; [exact l2|]. split; [exact l3|]. split; [exact Ec|].
    intros i j c (Hi & Hj' & Hc). fold cc in Hc.
    assert (Er : pixel m im (x + i) (y + j) c = get m (padd (origin im x y cc) (j * irs im + (i * cc + c))))
      by (unfold pixel; rewrite px_origin; reflexivity).
    rewrite Er. unfold pixel, px, ibase. rewrite l4. cbn [fst snd].
    replace (0 + j * irs im' + i * icc im' + c) with (j * irs im' + (i * cc + c)) by (rewrite Ec; lia).
    pose proof (join_index cc i c w Hi Hc) as J.
    rewrite G by (rewrite ?l5; lia). rewrite l5.
    pose proof (sv_rows _ _ _ _ _ _ _ Sv (h - 1 - j) (i * cc + c) ltac:(lia) ltac:(fold cc; lia)) as Hp. fold cc ps in Hp.
    rewrite (proj2 (Z.ltb_lt (i * cc + c) (w * cc))) in Hp by lia.
    replace (h - 1 - (h - 1 - j)) with j in Hp by lia.
    rewrite <- (Z.add_assoc (54 + ps)) . exact Hp.
  - constructor; unfold ibase; rewrite ?l4; cbn [fst snd]; rewrite ?W32_val; try discriminate; lia.
  - exact l7.
Qed.
(** A gray region and a region of a padded RGB image. *)
Example C62_case_gray : exists f m' im', BmpSave emem (img 1 9 5 1 12) 2 1 5 4 = Ok f /\ BmpLoad f emem 7 (fun _ => 0) = Ok (m', im') /\
    same_picture emem (img 1 9 5 1 12) 2 1 5 4 m' im' /\ wf m' im' /\ only_block emem m' 7.
Proof.
  apply C62_round_trip; try solve_area; try apply emem_bytes; try (vm_compute; intuition discriminate); try lia.
Qed.
Example C62_case_rgb : exists f m' im', BmpSave emem (img 1 9 5 3 28) 2 1 5 4 = Ok f /\ BmpLoad f emem 7 (fun _ => 0) = Ok (m', im') /\
    same_picture emem (img 1 9 5 3 28) 2 1 5 4 m' im' /\ wf m' im' /\ only_block emem m' 7.
Proof.
  apply C62_round_trip; try solve_area; try apply emem_bytes; try (vm_compute; intuition discriminate); try lia.
Qed.
Print Assumptions C62_round_trip.

(** The same for the form without a region. *)
Theorem C62_whole_image m im nb junk :
  wf m im -> bytes m im -> (forall o, 0 <= junk o < 256) ->
  76 <= bmp_size (iw im) (ih im) (icc im) < W32 -> iw im < 2147483648 ->
  exists f m' im', BmpSave1 m im = Ok f /\ BmpLoad f m nb junk = Ok (m', im') /\
    same_picture m im 0 0 (iw im) (ih im) m' im' /\ wf m' im' /\ only_block m m' nb.
Proof.
  intros Hwf. apply C62_round_trip. split; [exact Hwf|].
  pose proof (wf_w _ _ Hwf). pose proof (wf_h _ _ Hwf). constructor; lia.
Qed.
Example C62_case_whole : exists f m' im', BmpSave1 emem (img 1 9 5 4 40) = Ok f /\ BmpLoad f emem 7 (fun _ => 0) = Ok (m', im') /\
    same_picture emem (img 1 9 5 4 40) 0 0 9 5 m' im' /\ wf m' im' /\ only_block emem m' 7.
Proof.
  apply C62_whole_image; try solve_wf; try apply emem_bytes; try (vm_compute; intuition discriminate); try lia.
Qed.
Print Assumptions C62_whole_image.

(** ** C63 *)

Definition C63_claim : Prop := forall m im x y w h nb junk,
  area m im x y w h -> bytes m im -> (forall o, 0 <= junk o < 256) ->
  bmp_size w h (icc im) < W32 -> w < 2147483648 ->
  exists f m' im', BmpSave m im x y w h = Ok f /\ BmpLoad f m nb junk = Ok (m', im') /\
    same_picture m im x y w h m' im' /\ wf m' im' /\ only_block m m' nb.

(** Every region whose file has less than 76 bytes comes back as an empty image; with C62 this
    says which regions survive. *)
Theorem C63_small_partial m im x y w h nb junk :
  area m im x y w h -> bmp_size w h (icc im) < 76 ->
  exists f, BmpSave m im x y w h = Ok f /\ BmpLoad f m nb junk = Ok (m, no_image).
Proof.
  intros Ha Hs. unfold bmp_size in Hs. rewrite row_bytes4 in Hs.
  destruct (BmpSave_ok m im x y w h Ha) as (f & E & Sv).
  { rewrite W32_val. destruct (icc im =? 1); lia. }
  exists f. split; [exact E|]. unfold BmpLoad. rewrite (sv_len _ _ _ _ _ _ _ Sv).
  rewrite (proj2 (Z.ltb_lt _ (20 + 56))) by lia. reflexivity.
Qed.
Example C63_case : exists f, BmpSave emem (img 1 9 5 3 28) 2 1 1 1 = Ok f /\ BmpLoad f emem 7 (fun _ => 0) = Ok (emem, no_image).
Proof. apply C63_small_partial; [solve_area|vm_compute; reflexivity]. Qed.
Print Assumptions C63_small_partial.

Theorem C63_claim_refuted : ~ C63_claim.
Proof.
  intros H. destruct C63_case as (f & E & L).
  destruct (H emem (img 1 9 5 3 28) 2 1 1 1 7 (fun _ => 0)) as (f' & m' & im' & E' & L' & (W & _) & _);
    try solve_area; try apply emem_bytes; try lia; try (vm_compute; reflexivity).
  rewrite E in E'. injection E' as <-. rewrite L in L'. injection L' as _ <-. discriminate W.
Qed.
Print Assumptions C63_claim_refuted.

(** ** Headers of any file *)

(** Sizes that the dib header states: 16 bit numbers with the 12 byte header, otherwise 32 bit
    numbers; a negative height means rows from the top down. *)
Definition stated_width (f : file) : Z := if num32 f 14 =? 12 then num16 f 18 else num32 f 18.
Definition stated_height (f : file) : Z :=
  if num32 f 14 =? 12 then num16 f 20
  else if num32 f 22 <? 2147483648 then num32 f 22 else W32 - num32 f 22.
Definition bottom_up (f : file) : bool := (num32 f 14 =? 12) || (num32 f 22 <? 2147483648).
Definition stated_bits (f : file) : Z := if num32 f 14 =? 12 then num16 f 24 else num16 f 28.
Definition stated_planes (f : file) : Z := if num32 f 14 =? 12 then num16 f 22 else num16 f 26.

Lemma num16_range f o : byte_file f -> 0 <= o -> o + 2 <= blen f -> 0 <= num16 f o < 65536.
Proof. intros B H1 H2. pose proof (B o ltac:(lia)). pose proof (B (o + 1) ltac:(lia)). unfold num16. lia. Qed.
Lemma num32_range f o : byte_file f -> 0 <= o -> o + 4 <= blen f -> 0 <= num32 f o < W32.
Proof.
  intros B H1 H2. pose proof (B o ltac:(lia)). pose proof (B (o + 1) ltac:(lia)).
  pose proof (B (o + 2) ltac:(lia)). pose proof (B (o + 3) ltac:(lia)). unfold num32. rewrite W32_val. lia.
Qed.

Lemma dib_header_ok f off : byte_file f -> 76 <= blen f -> stated_height f <> 2147483648 \/ num32 f 14 = 12 ->
  exists od, dib_header (E := mem) f off = Ok od /\
    match od with
    | None => num32 f 14 <> 12 /\ num32 f 14 <> 40
    | Some d =>
        (num32 f 14 = 12 \/ num32 f 14 = 40) /\ dsize d = num32 f 14 /\
        dcc d = u8 (stated_bits f / 8) /\ dflipped d = bottom_up f /\
        dheight d = stated_height f /\ (dinvalid d = false -> dwidth d = stated_width f) /\
        (dinvalid d = false ->
           0 < stated_width f < 2147483648 /\ 0 < stated_height f < 2147483648 /\ (dcc d = 1 \/ dcc d = 3 \/ dcc d = 4) /\ dsize d + 14 <= off) /\
        (right_bits (stated_bits f) = true -> 0 < stated_width f < 2147483648 -> 0 < stated_height f < 2147483648 -> stated_planes f = 1 ->
         dsize d + 14 <= off ->
         (num32 f 14 = 40 -> num32 f 34 = 0 \/ num32 f 34 = u32 (stated_height f * row_size (stated_width f) (dcc d) 4)) ->
         dinvalid d = false)
    end.
Proof.
  intros B Hl Hh. unfold dib_header. rewrite le4.
  pose proof (num32_range f 18 B ltac:(lia) ltac:(lia)) as R18. pose proof (num32_range f 22 B ltac:(lia) ltac:(lia)) as R22.
  pose proof (num16_range f 18 B ltac:(lia) ltac:(lia)) as r18. pose proof (num16_range f 20 B ltac:(lia) ltac:(lia)) as r20.
  unfold stated_width, stated_height, bottom_up, stated_bits, stated_planes in *. rewrite W32_val in *.
  destruct (Z.eqb_spec (num32 f 14) 12) as [E12|N12].
  - eexists. split; [reflexivity|]. unfold core_header. rewrite !le2, !le4, E12. cbn [dwidth dheight dcc dsize dflipped dinvalid].
    split; [left; reflexivity|]. split; [reflexivity|]. split; [reflexivity|]. split; [reflexivity|]. split; [reflexivity|]. split; [reflexivity|].
    cbn [Z.eqb Pos.eqb negb orb].
    unfold right_bits. split.
    + intros H. rewrite !Bool.orb_false_iff, !Bool.negb_false_iff, !Bool.orb_true_iff, !Z.eqb_eq, !Z.eqb_neq, Z.ltb_ge in H.
      destruct H as [[[[[H1 H2] H3] H4] H5] H6]. split; [lia|]. split; [lia|]. split; [|lia].
      destruct H1 as [[-> | ->] | ->]; cbn; auto.
    + intros H1 H2 H3 H4 H5 _. rewrite H1, H4. rewrite (proj2 (Z.eqb_neq (num16 f 18) 0)) by lia.
      rewrite (proj2 (Z.eqb_neq (num16 f 20) 0)) by lia. rewrite (proj2 (Z.ltb_ge off (12 + 14))) by lia. reflexivity.
  - destruct (Z.eqb_spec (num32 f 14) 40) as [E40|N40].
    2:{ exists None. split; [reflexivity|]. auto. }
    assert (Hh' : num32 f 22 <> 2147483648).
    { destruct Hh as [Hh|Hh]; [|lia]. destruct (Z.ltb_spec (num32 f 22) 2147483648); lia. }
    unfold info_header. rewrite !le2, !le4, E40. unfold signed32. rewrite W32_val.
    set (hh := if num32 f 22 <? 2147483648 then num32 f 22 else num32 f 22 - 4294967296).
    assert (Eh : hh <> -2147483648) by (unfold hh; destruct (Z.ltb_spec (num32 f 22) 2147483648); lia).
    rewrite (proj2 (Z.eqb_neq hh (-2147483648)) Eh). cbn [bind]. eexists. split; [reflexivity|].
    set (H := if num32 f 22 <? 2147483648 then num32 f 22 else 4294967296 - num32 f 22) in *.
    assert (HH : (if hh <? 0 then - hh else hh) = H).
    { unfold H, hh. destruct (Z.ltb_spec (num32 f 22) 2147483648).
      - rewrite (proj2 (Z.ltb_ge (num32 f 22) 0)) by lia. reflexivity.
      - rewrite (proj2 (Z.ltb_lt (num32 f 22 - 4294967296) 0)) by lia. lia. }
    rewrite HH. assert (HR : 0 <= H < 2147483648) by (unfold H; destruct (Z.ltb_spec (num32 f 22) 2147483648); lia).
    rewrite (u32_small H) by (rewrite W32_val; lia).
    assert (HB : negb (hh <? 0) = (num32 f 22 <? 2147483648)).
    { unfold hh. destruct (Z.ltb_spec (num32 f 22) 2147483648).
      - rewrite (proj2 (Z.ltb_ge (num32 f 22) 0)) by lia. reflexivity.
      - rewrite (proj2 (Z.ltb_lt (num32 f 22 - 4294967296) 0)) by lia. reflexivity. }
    rewrite HB. cbn [dwidth dheight dcc dsize dflipped dinvalid].
    set (W := if num32 f 18 <? 2147483648 then num32 f 18 else num32 f 18 - 4294967296).
    set (bits := num16 f 28).
    cbn [Z.eqb Pos.eqb negb orb].
    assert (HW : 0 < W -> W = num32 f 18 /\ W < 2147483648).
    { unfold W. destruct (Z.ltb_spec (num32 f 18) 2147483648); lia. }
    split; [right; reflexivity|]. split; [reflexivity|]. split; [reflexivity|]. split; [reflexivity|]. split; [reflexivity|].
    unfold right_bits.
    split; [|split].
    + intros I. rewrite !Bool.orb_false_iff, !Z.leb_gt in I. destruct I as [[[[[[_ I2] _] _] _] _] _].
      destruct (HW I2) as [-> _]. apply u32_small. rewrite W32_val. lia.
    + intros I. rewrite !Bool.orb_false_iff, !Bool.negb_false_iff, !Bool.orb_true_iff, !Z.eqb_eq, !Z.leb_gt, Z.ltb_ge in I.
      destruct I as [[[[[[I1 I2] I3] _] _] _] I6]. destruct (HW I2) as [EW LW]. split; [lia|]. split; [lia|]. split; [|lia].
      destruct I1 as [[-> | ->] | ->]; cbn; auto.
    + intros I1 I2 I3 I4 I5 I6.
      assert (EW : W = num32 f 18). { unfold W. rewrite (proj2 (Z.ltb_lt _ _)); lia. }
      rewrite EW. rewrite (u32_small (num32 f 18)) by (rewrite W32_val; lia).
      rewrite I1, I4. rewrite (proj2 (Z.leb_gt (num32 f 18) 0)) by lia. rewrite (proj2 (Z.leb_gt H 0)) by lia.
      rewrite (proj2 (Z.ltb_ge off (40 + 14))) by lia.
      destruct (I6 eq_refl) as [-> | ->]; [|rewrite (Z.mul_comm H); unfold BITMAP_ALIGNMENT; rewrite Z.eqb_refl];
        cbn [Z.eqb negb andb orb]; rewrite ?Bool.andb_false_r; reflexivity.
Qed.

(** ** C64 *)

(** A bitmap file with 8 bits per pixel and a palette of 256 colours that is not the gray one. *)
Record colour_table_file (f : file) (w h : Z) : Prop := mkColourFile {
  cf_bytes : byte_file f;
  cf_type : num16 f 0 = 19778;
  cf_dib : num32 f 14 = 12 \/ num32 f 14 = 40;
  cf_off : num32 f 10 = 14 + num32 f 14 + 1024;
  cf_w : stated_width f = w;
  cf_h : stated_height f = h;
  cf_wr : 0 < w < 2147483648;
  cf_hr : 0 < h < 2147483648;
  cf_planes : stated_planes f = 1;
  cf_bits : stated_bits f = 8;
  cf_image : num32 f 14 = 40 -> num32 f 34 = 0 \/ num32 f 34 = h * row_bytes w 1;
  cf_len : blen f = num32 f 10 + h * row_bytes w 1;
  cf_max : blen f < W32;
  cf_colour : exists k, 0 <= k < 1024 /\ bget f (14 + num32 f 14 + k) <> gray_entry k
}.
(** Row of the file that holds row [y] of the picture; index stored for a pixel; byte of the
    colour of an index. *)
Definition file_row (f : file) (y : Z) : Z := if bottom_up f then stated_height f - 1 - y else y.
Definition index_of (f : file) (x y : Z) : Z := bget f (num32 f 10 + file_row f y * row_bytes (stated_width f) 1 + x).
Definition colour_of (f : file) (v c : Z) : Z := bget f (14 + num32 f 14 + 4 * v + c).

Definition C64_claim : Prop := forall f w h m nb junk,
  colour_table_file f w h -> (forall o, 0 <= junk o < 256) -> h * row_bytes w 3 < W32 ->
  exists m' im, BmpLoad f m nb junk = Ok (m', im) /\ wf m' im /\ iw im = w /\ ih im = h /\ icc im = 3 /\ only_block m m' nb /\
    forall x y c, inside w h 3 x y c -> pixel m' im x y c = colour_of f (index_of f x y) c.

(** The first row of samples in the file is not mapped: it is left as it is in the file. *)
Theorem C64_colours_partial f w h m nb junk :
  colour_table_file f w h -> (forall o, 0 <= junk o < 256) -> h * row_bytes w 3 < W32 ->
  exists m' im, BmpLoad f m nb junk = Ok (m', im) /\ wf m' im /\ iw im = w /\ ih im = h /\ icc im = 3 /\ only_block m m' nb /\
    (forall x y c, inside w h 3 x y c -> file_row f y <> 0 -> pixel m' im x y c = colour_of f (index_of f x y) c) /\
    (forall x y c, inside w h 3 x y c -> file_row f y = 0 -> 3 * x + c < w -> pixel m' im x y c = index_of f (3 * x + c) y).
Proof.
  intros [Hb Ht Hd Ho Ew Eh Hw Hh Hp Hbits Him Hlen HlenM Hcol] Hj Hs. rewrite row_bytes4 in *.
  assert (L1 : w <= row4 w 1) by (unfold row4, roundup; lia).
  assert (L3 : row4 w 1 <= row4 w 3 /\ 3 * w <= row4 w 3) by (unfold row4, roundup; lia).
  assert (S1 : h * row4 w 1 <= h * row4 w 3) by nia. assert (S2 : h <= h * row4 w 1) by nia.
  assert (Hlen' : 76 <= blen f) by lia.
  destruct (dib_header_ok f (num32 f 10) Hb Hlen') as (od & ED & HD); [left; lia|].
  destruct od as [d|]; [|lia]. destruct HD as (_ & Ds & Dc & Df & Dh & Dw & Dv & Dn).
  rewrite Hbits in Dc. change (u8 (8 / 8)) with 1 in Dc.
  destruct (row_size4 w h 1) as (ER & _); try lia.
  assert (Dn' : dinvalid d = false).
  { apply Dn; rewrite ?Hbits, ?Hp; auto; try lia. intros E40. rewrite Eh, Ew, Dc. change 4 with BITMAP_ALIGNMENT. rewrite ER.
    rewrite u32_small by lia. auto. }
  specialize (Dw Dn'). rewrite Ew in Dw. rewrite Eh in Dh. clear Dv Dn.
  assert (NG : ~ gray_at f (14 + dsize d)).
  { intros G. destruct Hcol as (k & Hk & Nk). apply Nk. rewrite <- Ds. apply (G k Hk). }
  assert (Ld : BmpLoad f m nb junk = load_data f m nb junk (num32 f 10) d).
  { unfold BmpLoad. rewrite (proj2 (Z.ltb_ge (blen f) (20 + 56))) by lia. rewrite le2, le4, Ht.
    rewrite (proj2 (Z.leb_gt (blen f) (num32 f 10))) by lia. cbn [Z.eqb Pos.eqb negb orb]. rewrite ED. cbn [bind]. rewrite Dn'. reflexivity. }
  rewrite Ld.
  destruct (load_data_ok f m nb junk (num32 f 10) d) as [[N _]|(m' & im & E2 & [l1 l2 l3 l4 l5 l6 l7 l8])];
    rewrite ?Dw, ?Dh, ?Dc in *; auto; try lia.
  destruct l8 as [(_ & G & _)|(Ec & _ & _ & _ & G & G0)].
  { exfalso. apply NG. apply G; lia. }
  rewrite Ec in l5. unfold stored_row in G, G0. rewrite Df, ?Dh, ?Ds in G. rewrite Df, ?Dh in G0.
  assert (FR : forall y, file_row f y = if bottom_up f then h - 1 - y else y) by (intros; unfold file_row; rewrite Eh; reflexivity).
  assert (PX : forall x y c, pixel m' im x y c = get m' (nb, y * irs im + (3 * x + c))).
  { intros x y c. unfold pixel, px, ibase. rewrite l4, Ec. cbn [fst snd]. f_equal. f_equal. lia. }
  exists m', im. split; [exact E2|]. split; [|split; [exact l2|split; [exact l3|split; [exact Ec|split; [exact l7|split]]]]].
  - constructor; unfold ibase; rewrite ?l4; cbn [fst snd]; try discriminate; lia.
  - intros x y c (Hx & Hy & Hc) Nr. rewrite PX. rewrite FR in Nr. rewrite G; auto; [|destruct (bottom_up f); lia].
    unfold colour_of, index_of. rewrite FR, Ew, row_bytes4. f_equal. lia.
  - intros x y c (Hx & Hy & Hc) Nr Hr. rewrite PX. rewrite FR in Nr. rewrite G0; auto; [|lia].
    unfold index_of. rewrite FR, Nr. f_equal. lia.
Qed.

(** A file of 2 x 2 pixels: index [3 y' + x] for row y' of the file, colour (7 v, v + 1, 9). *)
Definition colour_head : list Z :=
  [66; 77; 0; 0; 0; 0; 0; 0; 0; 0; 54; 4; 0; 0; 40; 0; 0; 0; 2; 0; 0; 0; 2; 0; 0; 0; 1; 0; 8; 0].
Definition colour_file : file := mkBlock 1086 (fun o =>
  if o <? 54 then nth (Z.to_nat o) colour_head 0
  else if o <? 1078 then
    let v := (o - 54) / 4 in
    let c := (o - 54) mod 4 in
    if c =? 0 then 7 * v mod 256 else if c =? 1 then (v + 1) mod 256 else if c =? 2 then 9 else 0
  else 3 * ((o - 1078) / 4) + (o - 1078) mod 4).

Lemma colour_head_bytes : all_bytes colour_head.
Proof. intros k. do 30 (destruct k as [|k]; [cbn; lia|]). destruct k; cbn; lia. Qed.

Lemma colour_file_ok : colour_table_file colour_file 2 2.
Proof.
  constructor; try reflexivity; try lia; auto.
  - intros o Ho. cbn [colour_file blen bget] in *. destruct (Z.ltb_spec o 54); [apply colour_head_bytes|].
    destruct (Z.ltb_spec o 1078); [|lia].
    destruct (_ =? 0); [apply Z.mod_pos_bound; lia|]. destruct (_ =? 1); [apply Z.mod_pos_bound; lia|]. destruct (_ =? 2); lia.
  - exists 2. split; [lia|]. discriminate.
Qed.

Example C64_case : exists m' im, BmpLoad colour_file emem 7 (fun _ => 0) = Ok (m', im) /\
  pixel m' im 1 0 0 = 28 /\ pixel m' im 1 0 1 = 5 /\ pixel m' im 0 0 2 = 9 /\
  (* the lower row, stored first, keeps its indices *)
  pixel m' im 0 1 0 = 0 /\ pixel m' im 0 1 1 = 1 /\ index_of colour_file 1 1 = 1 /\ colour_of colour_file 0 1 = 1 /\ colour_of colour_file 1 0 = 7.
Proof.
  destruct (C64_colours_partial colour_file 2 2 emem 7 (fun _ => 0) colour_file_ok) as (m' & im & E & _ & _ & _ & _ & _ & P & Q);
    [lia|vm_compute; reflexivity|].
  exists m', im. split; [exact E|].
  split; [rewrite P; [reflexivity|unfold inside; lia|discriminate]|].
  split; [rewrite P; [reflexivity|unfold inside; lia|discriminate]|].
  split; [rewrite P; [reflexivity|unfold inside; lia|discriminate]|].
  split; [rewrite Q; [reflexivity|unfold inside; lia|reflexivity|lia]|].
  split; [rewrite Q; [reflexivity|unfold inside; lia|reflexivity|lia]|].
  split; [reflexivity|]. split; reflexivity.
Qed.
Print Assumptions C64_colours_partial.

(** The index of pixel (1, 1) of that file is 1 ... but row 1 of the picture is not mapped: the
    red byte of pixel (0, 1) should be 7 * 0 = 0 and is; its green byte should be 1 and is the
    index 1; take another palette and it differs. *)
Definition plain_file : file := mkBlock 1086 (fun o =>
  if o <? 54 then nth (Z.to_nat o) colour_head 0 else if o <? 1078 then 200 else 0).

Lemma plain_file_ok : colour_table_file plain_file 2 2.
Proof.
  constructor; try reflexivity; try lia; auto.
  - intros o Ho. cbn [plain_file blen bget] in *. destruct (Z.ltb_spec o 54); [apply colour_head_bytes|].
    destruct (Z.ltb_spec o 1078); lia.
  - exists 2. split; [lia|]. discriminate.
Qed.

Theorem C64_claim_refuted : ~ C64_claim.
Proof.
  intros H. destruct (H plain_file 2 2 emem 7 (fun _ => 0) plain_file_ok) as (m' & im & E & _ & _ & _ & _ & _ & P);
    [lia|vm_compute; reflexivity|].
  destruct (C64_colours_partial plain_file 2 2 emem 7 (fun _ => 0) plain_file_ok) as (m2 & im2 & E2 & _ & _ & _ & _ & _ & _ & Q);
    [lia|vm_compute; reflexivity|].
  rewrite E in E2. injection E2 as <- <-.
  specialize (P 0 1 0 ltac:(unfold inside; lia)). specialize (Q 0 1 0 ltac:(unfold inside; lia) eq_refl ltac:(lia)).
  rewrite P in Q. discriminate Q.
Qed.
Print Assumptions C64_claim_refuted.

(** ** C65 *)

(** The call returns an image, an empty one or one that lies in its new memory block, and no
    other memory has changed.  (Anything else, in particular an access outside a block, is a
    different outcome of the model.) *)
Definition loads_safely (f : file) (m : mem) (nb : Z) (junk : Z -> Z) : Prop :=
  exists m' im, BmpLoad f m nb junk = Ok (m', im) /\ only_block m m' nb /\
    (idata im = None \/ idata im = Some (nb, 0) /\ len m' nb = ih im * irs im).

Definition C65_claim : Prop := forall f m nb junk,
  0 <= blen f -> byte_file f -> (forall o, 0 <= junk o < 256) -> loads_safely f m nb junk.

(** Proved for every file whose headers, if they are those of a bitmap, state less than 2^30
    pixels; the image is then well formed. *)
Definition bitmap_headers (f : file) : Prop := num16 f 0 = 19778 /\ (num32 f 14 = 12 \/ num32 f 14 = 40).
Theorem C65_safe_partial f m nb junk :
  0 <= blen f -> byte_file f -> (forall o, 0 <= junk o < 256) ->
  (bitmap_headers f -> 4 * stated_width f * stated_height f < W32 /\ stated_height f <> 2147483648) ->
  loads_safely f m nb junk /\
  exists m' im, BmpLoad f m nb junk = Ok (m', im) /\ (idata im = None \/ wf m' im).
Proof.
  intros Hf Hb Hj Hs.
  assert (X : BmpLoad f m nb junk = Ok (m, no_image) \/
    exists m' im, BmpLoad f m nb junk = Ok (m', im) /\ only_block m m' nb /\ idata im = Some (nb, 0) /\ len m' nb = ih im * irs im /\ wf m' im).
  { unfold BmpLoad. destruct (Z.ltb_spec (blen f) (20 + 56)) as [|Hl]; [left; reflexivity|].
    rewrite le2, le4. destruct (Z.eqb_spec (num16 f 0) 19778); cbn [negb orb]; [|left; reflexivity].
    destruct (Z.leb_spec (blen f) (num32 f 10)) as [|Ho]; [left; reflexivity|].
    assert (Y : (num32 f 14 = 12 \/ num32 f 14 = 40) \/ num32 f 14 <> 12 /\ num32 f 14 <> 40) by lia.
    destruct Y as [Y|[N12 N40]].
    2:{ left. unfold dib_header. rewrite le4. rewrite (proj2 (Z.eqb_neq _ _) N12), (proj2 (Z.eqb_neq _ _) N40). reflexivity. }
    destruct Hs as [Hs Hh]; [split; auto|].
    destruct (dib_header_ok f (num32 f 10) Hb Hl) as (od & ED & HD); [left; exact Hh|].
    rewrite ED. cbn [bind]. destruct od as [d|]; [|left; reflexivity].
    destruct HD as (_ & Ds & Dc & Df & Dh & Dw & Dv & _).
    destruct (dinvalid d); [left; reflexivity|]. specialize (Dw eq_refl). destruct (Dv eq_refl) as (V1 & V2 & V3 & V4).
    pose proof (num32_range f 10 Hb ltac:(lia) ltac:(lia)) as Ro.
    pose proof (num32_range f 14 Hb ltac:(lia) ltac:(lia)) as Rd.
    set (w := stated_width f) in *. set (h := stated_height f) in *.
    assert (RS : forall cc, 1 <= cc <= 4 -> w * cc <= row4 w cc /\ h * row4 w cc < W32).
    { intros cc Hc. pose proof (rows4 w cc ltac:(lia) Hc). unfold row4. split; [lia|].
      apply Z.le_lt_trans with (h * (4 * w)); [apply Z.mul_le_mono_nonneg_l; lia|lia]. }
    destruct (load_data_ok f m nb junk (num32 f 10) d) as [[_ N]|(m' & im & E2 & [l1 l2 l3 l4 l5 l6 l7 l8])]; rewrite ?Dw, ?Dh; auto; try lia.
    { apply RS. lia. }
    { intros _ _ _. apply RS. lia. }
    right. exists m', im. rewrite Dh in l6. split; [exact E2|]. split; [exact l7|]. split; [exact l4|].
    split; [rewrite l3, Dh; exact l6|].
    assert (Hc : icc im = 1 \/ icc im = 3 \/ icc im = 4) by (destruct l8 as [(-> & _)|(-> & _)]; [exact V3|auto]).
    rewrite Dw in *. rewrite Dh in *. destruct (RS (icc im) ltac:(lia)) as [R1 R2].
    constructor; unfold ibase; rewrite ?l4; cbn [fst snd]; rewrite ?l2, ?l3, ?l5; try discriminate; lia. }
  destruct X as [E|(m' & im & E & O & D & L & W)].
  - split.
    + exists m, no_image. split; [exact E|]. split; [intros b _; auto|left; reflexivity].
    + exists m, no_image. split; [exact E|]. left. reflexivity.
  - split; exists m', im; auto 10.
Qed.
Example C65_case : loads_safely colour_file emem 7 (fun _ => 0).
Proof.
  refine (proj1 (C65_safe_partial colour_file emem 7 (fun _ => 0) _ (cf_bytes _ _ _ colour_file_ok) _ _)).
  - cbn; lia.
  - lia.
  - intros _. vm_compute. split; [reflexivity|discriminate].
Qed.
(** Not a bitmap at all. *)
Example C65_case_noise : loads_safely (mkBlock 500 (fun o => o mod 256)) emem 7 (fun _ => 0).
Proof.
  refine (proj1 (C65_safe_partial _ emem 7 (fun _ => 0) _ _ _ _)).
  - cbn; lia.
  - intros o _. cbn [bget]. apply Z.mod_pos_bound. lia.
  - lia.
  - intros [H _]. vm_compute in H. discriminate H.
Qed.
Print Assumptions C65_safe_partial.

(** A file of 1.4 GB: one row of 1431655766 pixels of 8 bits with a palette.  The image for the
    colours needs rows of 4294967298 bytes; this number modulo 2^32 gives a buffer of 4 bytes,
    into which the row is read. *)
Definition wide_head : list Z :=
  [66; 77; 0; 0; 0; 0; 0; 0; 0; 0; 54; 4; 0; 0; 40; 0; 0; 0; 86; 85; 85; 85; 1; 0; 0; 0; 1; 0; 8; 0].
Definition wide_file : file := mkBlock (1078 + 1431655768) (fun o =>
  if o <? 54 then nth (Z.to_nat o) wide_head 0 else if o <? 1078 then 200 else 0).

Lemma wide_head_bytes : all_bytes wide_head.
Proof. intros k. do 30 (destruct k as [|k]; [cbn; lia|]). destruct k; cbn; lia. Qed.

Lemma wide_file_bytes : byte_file wide_file.
Proof.
  intros o Ho. cbn [wide_file blen bget] in *. destruct (Z.ltb_spec o 54); [apply wide_head_bytes|].
  destruct (Z.ltb_spec o 1078); lia.
Qed.

(** Reading more bytes than the buffer has, from a file that has them *)
Lemma read_overflow f m p total s :
  0 < total -> sfail s = false -> 0 <= snd p -> snd p + total <= blen f - spos s ->
  len m (fst p) < snd p + Z.min total blockSize ->
  @read_blocks mem f m p total s = UB.
Proof.
  intros Ht Hs Hp Hf Hl. unfold read_blocks, fuel_of. cbn [loop]. cbn [rleft].
  rewrite (proj2 (Z.ltb_lt 0 total)) by lia. cbn [rleft rdone rmem rstream].
  set (n := if blockSize <? total then blockSize else total).
  assert (Hn : n = Z.min total blockSize) by (unfold n; destruct (Z.ltb_spec blockSize total); lia).
  assert (Hn0 : 0 < n) by (unfold blockSize in *; lia).
  unfold sread. rewrite Hs. rewrite Z.min_l by lia. unfold blit.
  replace (range_ok m (padd p 0) n) with false; [reflexivity|].
  symmetry. apply Bool.not_true_iff_false. rewrite range_ok_true. unfold padd; cbn [fst snd]. lia.
Qed.

Lemma load_overflow f m nb junk off w :
  is_bytes (bget f) (blen f) -> 0 < w < W32 -> row_size w 1 4 = row4 w 1 -> off = 1078 ->
  blen f = off + row4 w 1 -> blen f < W32 -> row_size w 3 4 < Z.min (row4 w 1) blockSize -> bget f 54 <> 0 ->
  load_data f m nb junk off (mkDib w 1 1 40 true false) = UB.
Proof.
  intros Hb Hw E1 -> Hl Hm Hs Hg. unfold load_data. cbn [dwidth dheight dcc dsize dflipped]. change BITMAP_ALIGNMENT with 4.
  assert (Hr : 0 < row4 w 1) by (unfold row4, roundup; lia).
  rewrite E1. rewrite Z.mul_1_r. rewrite (u32_small (row4 w 1)) by lia. rewrite (u32_small (1078 + row4 w 1)) by lia.
  rewrite (proj2 (Z.eqb_eq _ _) Hl). cbn [negb].
  rewrite (u32_small (1078 - 40 - 14)) by (rewrite W32_val; lia). change (1078 - 40 - 14) with 1024.
  set (pm0 := fun _ : Z => mkBlock 1024 (fun _ => 0)).
  destruct (@read_blocks_ok mem f pm0 (0, 0) 1024 (mkStream (14 + 40) false)) as (pm & s & -> & _ & _ & _ & _ & Gp);
    cbn [spos sfail fst snd]; try lia.
  { unfold pm0, len; cbn [blen]. lia. }
  cbn [spos sfail] in Gp. destruct (Gp eq_refl ltac:(lia)) as [-> Gp']. cbn [bind].
  assert (C : forallb (fun k => get pm (0, Z.of_nat k) =? nth k gray_palette 0) (seq 0 1024) = false).
  { apply Bool.not_true_iff_false. intros A. rewrite forallb_forall in A. specialize (A 0%nat).
    assert (I : In 0%nat (seq 0 1024)) by (apply in_seq; lia). specialize (A I). apply Z.eqb_eq in A. apply Hg.
    specialize (Gp' 0 ltac:(lia)). unfold padd in Gp'; cbn [fst snd] in Gp'. change (14 + 40 + 0) with 54 in Gp'. rewrite <- Gp'. exact A. }
  rewrite C. change ((0 <? 1024) && (1024 =? 1024) && (1 =? 1) && negb false) with true. cbv iota.
  unfold new_image. cbn [irs].
  rewrite read_overflow; [reflexivity|lia|reflexivity|cbn [snd]; lia|cbn [snd spos]; lia|].
  cbn [fst snd]. unfold len. rewrite Z.eqb_refl. cbn [blen]. lia.
Qed.

Theorem C65_claim_refuted : ~ C65_claim.
Proof.
  intros H. destruct (H wide_file emem 7 (fun _ => 0)) as (m' & im & E & _); [cbn; lia|apply wide_file_bytes|lia|].
  assert (D : BmpLoad wide_file emem 7 (fun _ => 0) = UB); [|congruence]. clear E H.
  transitivity (load_data wide_file emem 7 (fun _ => 0) 1078 (mkDib 1431655766 1 1 40 true false)).
  - unfold BmpLoad. replace (blen wide_file <? 20 + 56) with false by reflexivity.
    replace (le (bget wide_file) 0 2) with 19778 by reflexivity. replace (le (bget wide_file) 10 4) with 1078 by reflexivity.
    replace (blen wide_file <=? 1078) with false by reflexivity. cbn [Z.eqb Pos.eqb negb orb].
    replace (dib_header wide_file 1078) with (@Ok mem (option dib) (Some (mkDib 1431655766 1 1 40 true false))) by (vm_compute; reflexivity).
    reflexivity.
  - apply load_overflow; try reflexivity; try lia.
    + apply wide_file_bytes.
    + unfold W32; lia.
    + discriminate.
Qed.
Print Assumptions C65_claim_refuted.

(** The negation in the height field is undefined for the smallest number. *)
Theorem C65_height_refuted f m nb junk off :
  76 <= blen f -> num16 f 0 = 19778 -> num32 f 10 = off -> off < blen f -> num32 f 14 = 40 -> num32 f 22 = 2147483648 ->
  BmpLoad f m nb junk = UB.
Proof.
  intros Hl Ht Ho Hol Hd Hh. unfold BmpLoad. rewrite (proj2 (Z.ltb_ge (blen f) (20 + 56))) by lia.
  rewrite le2, le4, Ht, Ho. rewrite (proj2 (Z.leb_gt (blen f) off)) by lia. cbn [Z.eqb Pos.eqb negb orb].
  unfold dib_header. rewrite le4, Hd. cbn [Z.eqb Pos.eqb]. unfold info_header. rewrite (le4 f 22), Hh. reflexivity.
Qed.
Print Assumptions C65_height_refuted.

(** ** C66 *)

(** The elements of the image are numbers of [sz] bytes. *)
Definition elements (sz : Z) (m : mem) (im : image) : Prop :=
  forall k, 0 <= k < ih im * irs im -> 0 <= get m (padd (ibase im) k) < 256 ^ sz.

(** Byte [k] of a number. *)
Definition byte_at (v k : Z) : Z := v / 256 ^ k mod 256.

Theorem C66_round_trip sz m im nb junk :
  wf m im -> irs im = iw im * icc im -> 0 < sz -> elements sz m im -> sz * (ih im * irs im) < W32 ->
  exists f m' im', RawSave sz m im = Ok f /\ RawLoad sz f m nb junk (iw im) (ih im) (icc im) = Ok (m', im') /\
    same_picture m im 0 0 (iw im) (ih im) m' im' /\ wf m' im' /\ only_block m m' nb.
Proof.
  intros Hwf Hu Hsz Hel Hs.
  pose proof (wf_size _ _ Hwf) as Hsize. pose proof (wf_rs_pos _ _ Hwf) as Hrs. pose proof (wf_h _ _ Hwf) as Hh. pose proof (wf_w _ _ Hwf) as Hw.
  pose proof (wf_lo _ _ Hwf) as Hlo. pose proof (wf_hi _ _ Hwf) as Hhi. pose proof (wf_cc_pos _ _ Hwf) as Hcc. pose proof (wf_cc _ _ Hwf) as Hcc3.
  pose proof (wf_bounds _ _ Hwf) as (B1 & B2 & B3 & B4).
  unfold RawSave.
  assert (V : valid_image im = true).
  { unfold valid_image. rewrite (wf_not_empty _ _ Hwf), (color_ok _ _ Hwf). reflexivity. }
  rewrite V. replace (dataptr im) with (ibase im).
  2:{ unfold dataptr, ibase. destruct (idata im) eqn:E; auto. destruct (wf_data _ _ Hwf E). }
  rewrite (Z.mul_comm (irs im) (ih im)). set (n := ih im * irs im) in *.
  assert (Hn : 0 < n) by (unfold n; nia).
  rewrite (proj2 (range_ok_true m (ibase im) n)) by (right; lia).
  set (f := append no_bytes (sz * n) _).
  assert (Hf : blen f = sz * n) by (unfold f, append, no_bytes; cbn [blen]; lia).
  assert (Hg : forall i k, 0 <= i < n -> 0 <= k < sz -> bget f (i * sz + k) = byte_of (get m (padd (ibase im) i)) k).
  { intros i k Hi Hk. unfold f. rewrite append_hi by (cbn [no_bytes blen]; nia). cbn [no_bytes blen]. rewrite Z.sub_0_r.
    destruct (divmod_flat sz i k Hk) as [-> ->]. reflexivity. }
  clearbody f. exists f. unfold RawLoad.
  rewrite (proj2 (Z.eqb_neq (iw im) 0)), (proj2 (Z.eqb_neq (ih im) 0)), (proj2 (Z.eqb_neq (icc im) 0)) by lia. cbn [orb negb].
  assert (Hwh : iw im * ih im <= n) by (unfold n; rewrite Hu; nia).
  assert (E1 : u32 (u32 (u32 (iw im * ih im) * icc im) * sz) = sz * n).
  { rewrite (u32_small (iw im * ih im)) by nia. replace (iw im * ih im * icc im) with n by (unfold n; rewrite Hu; ring).
    rewrite (u32_small n) by nia. rewrite u32_small by nia. ring. }
  rewrite E1, Hf, Z.eqb_refl. cbn [negb].
  assert (E2 : row_size (iw im) (icc im) 1 = irs im).
  { rewrite row_size_ok; unfold roundup; try lia. }
  unfold new_image. rewrite E2.
  replace (sz * n / sz) with n by (symmetry; rewrite Z.mul_comm; apply Z.div_mul; lia).
  destruct (@blit_ok mem (fun b => if b =? nb then mkBlock (ih im * irs im) junk else m b) (nb, 0) n
    (fun i => le (bget f) (i * sz) (Z.to_nat sz))) as (m' & -> & L & G).
  { right. cbn [fst snd]. unfold len. rewrite Z.eqb_refl. cbn [blen]. fold n. lia. }
  cbn [bind]. eexists m', _. split; [reflexivity|]. split; [reflexivity|].
  split; [|split].
  - unfold same_picture. cbn [iw ih icc]. split; [reflexivity|]. split; [reflexivity|]. split; [reflexivity|].
    intros i j c (Hi & Hj & Hc). unfold pixel at 1. unfold px at 1, ibase at 1 2. cbn [idata irs icc fst snd].
    pose proof (join_index (icc im) i c (iw im) Hi Hc) as J. rewrite <- Hu in J.
    pose proof (row_inside (irs im) (ih im) j (i * icc im + c) Hj J) as R. fold n in R.
    rewrite G. rewrite in_range_in by (cbn [fst snd]; lia). cbn [fst snd].
    replace (0 + j * irs im + i * icc im + c - 0) with (j * irs im + (i * icc im + c)) by lia.
    set (k := j * irs im + (i * icc im + c)) in *.
    replace (pixel m im (0 + i) (0 + j) c) with (get m (padd (ibase im) k))
      by (unfold pixel, px, padd, k; f_equal; f_equal; lia).
    apply le_value; rewrite ?Z2Nat.id by lia; [apply Hel; exact R|]. intros b Hb. apply Hg; lia.
  - constructor; unfold ibase; cbn [iw ih icc irs idata fst snd]; try discriminate; try lia; auto.
    rewrite L. unfold len. rewrite Z.eqb_refl. cbn [blen]. lia.
  - intros b Hb. split.
    + rewrite L. unfold len. rewrite (proj2 (Z.eqb_neq b nb) Hb). reflexivity.
    + intros o. rewrite G. rewrite in_range_out by (cbn [fst]; intros; contradiction).
      unfold get; cbn [fst snd]. rewrite (proj2 (Z.eqb_neq b nb) Hb). reflexivity.
Qed.
(** 16-bit elements *)
Definition emem16 : mem := fun b => mkBlock 4096 (fun o => (o * 3701 + b * 11) mod 65536).
Example C66_case : exists f m' im', RawSave 2 emem16 (img 1 9 5 3 27) = Ok f /\ RawLoad 2 f emem16 7 (fun _ => 0) 9 5 3 = Ok (m', im') /\
    same_picture emem16 (img 1 9 5 3 27) 0 0 9 5 m' im' /\ wf m' im' /\ only_block emem16 m' 7.
Proof.
  apply (C66_round_trip 2 emem16 (img 1 9 5 3 27)); try solve_wf; try reflexivity; try lia.
  - intros k _. unfold get, emem16. cbn [bget]. apply (Z.mod_pos_bound _ 65536). lia.
Qed.
Print Assumptions C66_round_trip.

(** The bytes of every element (also between the rows) are reversed; nothing else changes. *)
Theorem C66_byte_swap sz m im : wf m im -> 0 < sz -> elements sz m im ->
  exists m', LittleEndianToBigEndian sz m im = Ok m' /\ (forall b, len m' b = len m b) /\ elements sz m' im /\
    (forall k i, 0 <= k < ih im * irs im -> 0 <= i < sz ->
       byte_at (get m' (padd (ibase im) k)) i = byte_at (get m (padd (ibase im) k)) (sz - 1 - i)) /\
    (forall q, (forall k, 0 <= k < ih im * irs im -> q <> padd (ibase im) k) -> get m' q = get m q).
Proof.
  intros Hwf Hsz Hel. destruct (BigEndian_ok sz m im Hwf Hsz) as (m' & E & L & G & F).
  { intros ->. exact Hel. }
  exists m'. split; [exact E|]. split; [exact L|]. split; [|split; [|exact F]].
  - intros k Hk. rewrite G by exact Hk. apply (swap_value_ok sz). exact Hsz.
  - intros k i Hk Hi. rewrite G by exact Hk. apply (swap_value_ok sz); assumption.
Qed.
Print Assumptions C66_byte_swap.

Theorem C66_swap_twice sz m im : wf m im -> 0 < sz -> elements sz m im ->
  exists m1 m2, LittleEndianToBigEndian sz m im = Ok m1 /\ LittleEndianToBigEndian sz m1 im = Ok m2 /\
    (forall b, len m2 b = len m b) /\ forall q, get m2 q = get m q.
Proof.
  intros Hwf Hsz Hel. destruct (BigEndian_ok sz m im Hwf Hsz) as (m1 & E1 & L1 & G1 & F1).
  { intros ->. exact Hel. }
  assert (Hwf1 : wf m1 im) by (destruct Hwf; constructor; auto; rewrite L1; assumption).
  destruct (BigEndian_ok sz m1 im Hwf1 Hsz) as (m2 & E2 & L2 & G2 & F2).
  { intros ->. intros k Hk. rewrite G1 by exact Hk. apply (swap_value_ok 1). lia. }
  exists m1, m2. split; [exact E1|]. split; [exact E2|]. split; [intros b; rewrite L2; apply L1|].
  intros [b o]. set (k := o - snd (ibase im)).
  assert (D : (b = fst (ibase im) /\ 0 <= k < ih im * irs im) \/ (b <> fst (ibase im) \/ ~ 0 <= k < ih im * irs im)) by lia.
  destruct D as [[-> Hk]|D].
  - replace (fst (ibase im), o) with (padd (ibase im) k) by (unfold padd, k; f_equal; lia).
    rewrite G2, G1 by exact Hk. apply swap_value_twice; auto.
  - assert (O : forall k', 0 <= k' < ih im * irs im -> (b, o) <> padd (ibase im) k').
    { intros k' Hk' Eq. unfold padd in Eq. injection Eq as -> ->. unfold k in D. lia. }
    rewrite F2, F1 by exact O. reflexivity.
Qed.
Example C66_swap_case : exists m1, LittleEndianToBigEndian 2 emem16 (img 1 9 5 3 28) = Ok m1 /\
  get emem16 (1, 5) = 18516 /\ get m1 (1, 5) = 18516 mod 256 * 256 + 18516 / 256.
Proof.
  destruct (C66_byte_swap 2 emem16 (img 1 9 5 3 28)) as (m1 & E & _ & El & B & _); [solve_wf|lia| |].
  - intros k _. unfold get, emem16. cbn [bget]. apply (Z.mod_pos_bound _ 65536). lia.
  - exists m1. split; [exact E|]. split; [reflexivity|].
    specialize (El 5 ltac:(cbn; lia)). pose proof (B 5 0 ltac:(cbn; lia) ltac:(lia)) as B0. pose proof (B 5 1 ltac:(cbn; lia) ltac:(lia)) as B1.
    change (padd (ibase (img 1 9 5 3 28)) 5) with (1, 5) in *. unfold byte_at in *.
    change (get emem16 (1, 5)) with 18516 in *. change (256 ^ 2) with 65536 in El. change (256 ^ 0) with 1 in *.
    change (256 ^ 1) with 256 in *. change (256 ^ (2 - 1 - 0)) with 256 in *. change (256 ^ (2 - 1 - 1)) with 1 in *. lia.
Qed.
Print Assumptions C66_swap_twice.

(** ** C67 *)

Definition C67_claim : Prop := forall sz m im nb junk,
  wf m im -> 0 < sz -> elements sz m im -> sz * (ih im * irs im) < W32 ->
  exists f m' im', RawSave sz m im = Ok f /\ RawLoad sz f m nb junk (iw im) (ih im) (icc im) = Ok (m', im') /\
    same_picture m im 0 0 (iw im) (ih im) m' im' /\ wf m' im' /\ only_block m m' nb.

(** With unused elements between the rows the image always comes back empty. *)
Theorem C67_padded_partial sz m im nb junk :
  wf m im -> iw im * icc im < irs im -> 0 < sz -> sz * (ih im * irs im) < W32 ->
  exists f, RawSave sz m im = Ok f /\ RawLoad sz f m nb junk (iw im) (ih im) (icc im) = Ok (m, no_image).
Proof.
  intros Hwf Hp Hsz Hs.
  pose proof (wf_size _ _ Hwf) as Hsize. pose proof (wf_rs_pos _ _ Hwf) as Hrs. pose proof (wf_h _ _ Hwf) as Hh. pose proof (wf_w _ _ Hwf) as Hw.
  pose proof (wf_lo _ _ Hwf) as Hlo. pose proof (wf_hi _ _ Hwf) as Hhi. pose proof (wf_cc_pos _ _ Hwf) as Hcc.
  unfold RawSave.
  assert (V : valid_image im = true).
  { unfold valid_image. rewrite (wf_not_empty _ _ Hwf), (color_ok _ _ Hwf). reflexivity. }
  rewrite V. replace (dataptr im) with (ibase im).
  2:{ unfold dataptr, ibase. destruct (idata im) eqn:E; auto. destruct (wf_data _ _ Hwf E). }
  rewrite (Z.mul_comm (irs im) (ih im)).
  rewrite (proj2 (range_ok_true m (ibase im) (ih im * irs im))) by (right; lia).
  eexists. split; [reflexivity|]. unfold RawLoad.
  rewrite (proj2 (Z.eqb_neq (iw im) 0)), (proj2 (Z.eqb_neq (ih im) 0)), (proj2 (Z.eqb_neq (icc im) 0)) by lia. cbn [orb negb].
  set (k := iw im * icc im) in *. assert (Hk : 0 < k) by (unfold k; nia).
  assert (H1 : ih im * k < ih im * irs im) by (apply Z.mul_lt_mono_pos_l; lia).
  assert (H2 : sz * (ih im * k) < sz * (ih im * irs im)) by (apply Z.mul_lt_mono_pos_l; lia).
  assert (H3 : iw im * ih im <= ih im * k) by (unfold k; nia).
  assert (H4 : 0 < iw im * ih im) by nia. assert (H5 : ih im * k <= sz * (ih im * k)) by nia.
  rewrite (u32_small (iw im * ih im)) by lia. replace (iw im * ih im * icc im) with (ih im * k) by (unfold k; ring).
  rewrite (u32_small (ih im * k)) by lia. rewrite u32_small by lia.
  unfold append, no_bytes; cbn [blen]. rewrite (proj2 (Z.eqb_neq (0 + sz * (ih im * irs im)) (ih im * k * sz))) by lia.
  reflexivity.
Qed.
Example C67_case : exists f, RawSave 1 emem (img 1 3 2 1 4) = Ok f /\ RawLoad 1 f emem 7 (fun _ => 0) 3 2 1 = Ok (emem, no_image).
Proof. apply (C67_padded_partial 1 emem (img 1 3 2 1 4)); [solve_wf|reflexivity|lia|reflexivity]. Qed.
Print Assumptions C67_padded_partial.

Theorem C67_claim_refuted : ~ C67_claim.
Proof.
  intros H. destruct C67_case as (f & E & L).
  destruct (H 1 emem (img 1 3 2 1 4) 7 (fun _ => 0)) as (f' & m' & im' & E' & L' & (W & _) & _); [solve_wf|lia| |reflexivity|].
  - intros k _. unfold get, emem. cbn [bget]. apply (Z.mod_pos_bound _ 256). lia.
  - rewrite E in E'. injection E' as <-. cbn [img iw ih icc] in L'. rewrite L in L'. injection L' as _ <-. discriminate W.
Qed.
Print Assumptions C67_claim_refuted.
