(** Proofs about saving: the bytes of the file, and reading them back. *)
From Coq Require Import ZArith List Bool Lia.
From Verif Require Import Base Image Spec BaseProofs ImgFun ImgLemmas Container ContainerProofs File FileProofs.
Import ListNotations.
Open Scope Z_scope.
Ltac Zify.zify_post_hook ::= Z.div_mod_to_equations.

(** ** Numbers in the headers *)

Lemma le_le_bytes g n : forall o v, 0 <= v ->
  (forall k, (k < n)%nat -> g (o + Z.of_nat k) = nth k (le_bytes n v) 0) -> le g o n = v mod 256 ^ Z.of_nat n.
Proof.
  induction n as [|n IH]; intros o v Hv Hg.
  - cbn [le]. change (256 ^ Z.of_nat 0) with 1. rewrite Z.mod_1_r. reflexivity.
  - cbn [le]. rewrite (IH (o + 1) (v / 256)).
    + rewrite Nat2Z.inj_succ, Z.pow_succ_r by lia. rewrite Z.rem_mul_r by (try apply Z.pow_pos_nonneg; lia).
      specialize (Hg 0%nat ltac:(lia)). cbn [le_bytes nth] in Hg. rewrite Z.add_0_r in Hg. rewrite Hg. reflexivity.
    + apply Z.div_pos; lia.
    + intros k Hk. specialize (Hg (S k) ltac:(lia)). cbn [le_bytes nth] in Hg. rewrite <- Hg. f_equal. lia.
Qed.

Lemma le_field g n o v : 0 <= v < 256 ^ Z.of_nat n ->
  (forall k, (k < n)%nat -> g (o + Z.of_nat k) = nth k (le_bytes n v) 0) -> le g o n = v.
Proof. intros Hv Hg. rewrite (le_le_bytes g n o v) by (auto; lia). apply Z.mod_small. exact Hv. Qed.

Definition headers (bfSize off w h cc size : Z) : list Z := file_header bfSize off ++ dib_bytes w h cc size.

Lemma headers_length a b w h c s : length (headers a b w h c s) = 54%nat.
Proof. reflexivity. Qed.

(** ** The saved file *)

Record saved (m : mem) (im : image) (x y w h : Z) (f : file) : Prop := mkSaved {
  sv_len : blen f = 54 + (if icc im =? 1 then 1024 else 0) + h * row4 w (icc im);
  sv_head : forall o, 0 <= o < 54 -> bget f o = nth (Z.to_nat o)
    (headers (u32 (54 + (if icc im =? 1 then 1024 else 0) + h * row4 w (icc im))) (54 + (if icc im =? 1 then 1024 else 0)) w h (icc im) (h * row4 w (icc im))) 0;
  sv_gray : icc im = 1 -> gray_at f 54;
  sv_rows : forall r i, 0 <= r < h -> 0 <= i < row4 w (icc im) ->
    bget f (54 + (if icc im =? 1 then 1024 else 0) + (r * row4 w (icc im) + i))
    = if i <? w * icc im then get m (padd (origin im x y (icc im)) ((h - 1 - r) * irs im + i)) else 0
}.

Lemma append_lo f n g o : o < blen f -> bget (append f n g) o = bget f o.
Proof. intros H. unfold append; cbn [bget]. rewrite (proj2 (Z.ltb_lt _ _) H). reflexivity. Qed.
Lemma append_hi f n g o : blen f <= o -> bget (append f n g) o = g (o - blen f).
Proof. intros H. unfold append; cbn [bget]. rewrite (proj2 (Z.ltb_ge _ _) H). reflexivity. Qed.

Lemma BmpSave_ok m im x y w h : area m im x y w h -> h * row4 w (icc im) < W32 ->
  exists f, BmpSave m im x y w h = Ok f /\ saved m im x y w h f.
Proof.
  intros (Hwf & Hr) Hs. unfold BmpSave. rewrite (valid_roi_ok _ _ _ _ _ _ Hwf Hr).
  pose proof (wf_cc _ _ Hwf) as Hcc. pose proof (wf_cc_pos _ _ Hwf) as Hc1. pose proof (wf_bounds _ _ Hwf) as (B1 & B2 & B3 & B4).
  pose proof Hr as [Rx Ry Rw Rh Rxw Ryh].
  destruct (row_size4 w h (icc im)) as (E1 & L1 & L2); auto. rewrite E1.
  set (cc := icc im) in *. set (L := row4 w cc) in *. set (rs := irs im) in *.
  set (ps := if cc =? 1 then 1024 else 0).
  assert (Eps : Z.of_nat (length (if cc =? 1 then gray_palette else [])) = ps).
  { unfold ps. destruct (cc =? 1); [rewrite gray_length|]; reflexivity. }
  rewrite Eps. assert (Hps : ps = 0 \/ ps = 1024) by (unfold ps; destruct (cc =? 1); auto).
  rewrite (u32_small (L * h)) by nia.
  replace (14 + 40 + ps) with (54 + ps) by lia. rewrite (u32_small (54 + ps)) by (rewrite W32_val; lia).
  rewrite (Z.mul_comm L h).
  set (f1 := append_list no_bytes (file_header _ _)).
  set (f2 := append_list f1 _).
  set (f3 := append_list f2 _).
  assert (H1 : blen f1 = 14) by reflexivity.
  assert (H2 : blen f2 = 54) by reflexivity.
  assert (H3 : blen f3 = 54 + ps).
  { unfold f3, append_list, append. cbn [blen]. rewrite H2, Eps. reflexivity. }
  assert (G2 : forall o, 0 <= o < 54 -> bget f2 o = nth (Z.to_nat o) (headers (u32 (54 + ps + h * L)) (54 + ps) w h cc (h * L)) 0).
  { intros o Ho. unfold headers. destruct (Z.lt_ge_cases o 14).
    - unfold f2, append_list. rewrite append_lo by lia. unfold f1, append_list. rewrite append_hi by (cbn; lia).
      rewrite app_nth1 by (cbn [length file_header le_bytes app]; lia). f_equal. cbn [no_bytes blen]. lia.
    - unfold f2, append_list. rewrite append_hi by lia.
      rewrite app_nth2 by (cbn [length file_header le_bytes app]; lia). f_equal.
      rewrite H1. cbn [length file_header le_bytes app]. lia. }
  assert (G3 : cc = 1 -> gray_at f3 54).
  { intros C k Hk. unfold f3, append_list. rewrite append_hi by lia. rewrite H2, C. cbn [Z.eqb Pos.eqb].
    replace (54 + k - 54) with k by lia. apply gray_nth. exact Hk. }
  rewrite (u32_small (y + h)) by lia. rewrite (u32_small (y + h - 1)) by lia.
  assert (Hr1 : roi_in im x (y + h - 1) w 1) by (constructor; lia).
  rewrite (row_ptr_origin m im x (y + h - 1) w 1) by (auto; lia).
  replace (origin im x (y + h - 1) cc) with (padd (origin im x y cc) ((h - 1) * rs))
    by (unfold origin, padd; cbn [fst snd]; f_equal; fold rs; lia).
  set (P := fun k (s : file * ptr) =>
    snd s = padd (origin im x y cc) ((h - 1 - k) * rs) /\ blen (fst s) = 54 + ps + k * L /\
    (forall o, 0 <= o < 54 + ps -> bget (fst s) o = bget f3 o) /\
    forall r i, 0 <= r < k -> 0 <= i < L -> bget (fst s) (54 + ps + (r * L + i))
      = if i <? w * cc then get m (padd (origin im x y cc) ((h - 1 - r) * rs + i)) else 0).
  match goal with |- context [iterM ?n 0 ?g ?s0] => destruct (iterM_inv P g n 0 s0) as ([f p] & -> & Q) end.
  - unfold P; cbn [fst snd]. split; [f_equal; lia|]. split; [lia|]. split; [auto|lia].
  - intros k [f p] Hk (Ep & Hl & Hlo & Hg). cbn [fst snd] in *. rewrite Z2Nat.id in Hk by lia. subst p.
    unfold emit. rewrite (proj2 (range_ok_true m _ (w * cc))).
    2:{ right. pose proof (cell_inb m im x y w h 0 (h - 1 - k) Hwf Hr ltac:(fold cc; nia) ltac:(lia)) as I1.
        pose proof (cell_inb m im x y w h (w * cc - 1) (h - 1 - k) Hwf Hr ltac:(fold cc; nia) ltac:(lia)) as I2.
        apply inb_iff in I1, I2. fold cc rs in I1, I2. unfold padd in *; cbn [fst snd] in *. lia. }
    cbn [bind]. assert (HL : L - w * cc <= 3) by (unfold L, row4, roundup; lia).
    rewrite (proj2 (Z.leb_le 0 (L - w * cc))) by lia. rewrite (proj2 (Z.leb_le (L - w * cc) 4)) by lia. cbn [andb].
    eexists. split; [reflexivity|]. unfold P; cbn [fst snd]. split; [rewrite padd_padd; f_equal; lia|].
    split; [unfold append; cbn [blen]; lia|].
    set (fa := append f (w * cc) _). assert (Ha : blen fa = 54 + ps + k * L + w * cc) by (unfold fa, append; cbn [blen]; lia).
    split.
    + intros o Ho. rewrite append_lo by nia. unfold fa. rewrite append_lo by nia. apply Hlo. exact Ho.
    + intros r i Hr' Hi. destruct (Z.eq_dec r k) as [->|Nr].
      * destruct (Z.ltb_spec i (w * cc)).
        -- rewrite append_lo by lia. unfold fa. rewrite append_hi by lia. rewrite Hl, padd_padd. f_equal. f_equal. lia.
        -- rewrite append_hi by lia. reflexivity.
      * assert (r * L + i < k * L) by nia.
        rewrite append_lo by nia. unfold fa. rewrite append_lo by nia. apply Hg; lia.
  - rewrite Z2Nat.id in Q by lia. destruct Q as (_ & Hl & Hlo & Hg). cbn [fst snd bind] in *.
    exists f. split; [reflexivity|]. constructor; fold cc L rs ps.
    + lia.
    + intros o Ho. rewrite Hlo by lia. rewrite <- G2 by exact Ho. unfold f3, append_list. apply append_lo. lia.
    + intros C k Hk. assert (ps = 1024) by (unfold ps; rewrite C; reflexivity). rewrite Hlo by lia. apply (G3 C). exact Hk.
    + intros r i Hr' Hi. apply Hg; lia.
Qed.

(** ** Reading it back *)

Ltac fld :=
  let k := fresh in let H := fresh in intros k H;
  do 4 (destruct k as [|k]; [try (exfalso; clear - H; lia); cbv [headers file_header dib_bytes le_bytes app nth Nat.add]; reflexivity|]);
  exfalso; clear - H; lia.

Lemma pow4 : 256 ^ Z.of_nat 4 = W32.
Proof. reflexivity. Qed.
Lemma pow2 : 256 ^ Z.of_nat 2 = 65536.
Proof. reflexivity. Qed.

Lemma fields f tot off w h cc sz :
  (forall o, 0 <= o < 54 -> bget f o = nth (Z.to_nat o) (headers tot off w h cc sz) 0) ->
  0 <= off < W32 -> 0 <= w < W32 -> 0 <= h < W32 -> 1 <= cc <= 4 -> 0 <= sz < W32 ->
  le (bget f) 0 2 = 19778 /\ le (bget f) 10 4 = off /\ le (bget f) 14 4 = 40 /\ le (bget f) 18 4 = w /\
  le (bget f) 22 4 = h /\ le (bget f) 26 2 = 1 /\ le (bget f) 28 2 = cc * 8 /\ le (bget f) 34 4 = sz.
Proof.
  intros Hh Ho Hw Hhh Hc Hs.
  assert (F : forall o n v, (o + n <= 54)%nat -> 0 <= v < 256 ^ Z.of_nat n ->
    (forall k, (k < n)%nat -> nth (o + k) (headers tot off w h cc sz) 0 = nth k (le_bytes n v) 0) ->
    le (bget f) (Z.of_nat o) n = v).
  { intros o n v Hn Hv Hk. apply le_field; [exact Hv|]. intros k Hk'. rewrite Hh by lia.
    replace (Z.to_nat (Z.of_nat o + Z.of_nat k)) with (o + k)%nat by lia. apply Hk. exact Hk'. }
  assert (E : u16 (cc * 8) = cc * 8) by (unfold u16; apply Z.mod_small; lia).
  rewrite W32_val in *.
  split; [|split; [|split; [|split; [|split; [|split; [|split]]]]]].
  - apply (F 0%nat 2%nat 19778); [lia|rewrite pow2; lia|fld].
  - apply (F 10%nat 4%nat off); [lia|rewrite pow4, W32_val; lia|fld].
  - apply (F 14%nat 4%nat 40); [lia|rewrite pow4, W32_val; lia|fld].
  - apply (F 18%nat 4%nat w); [lia|rewrite pow4, W32_val; lia|fld].
  - apply (F 22%nat 4%nat h); [lia|rewrite pow4, W32_val; lia|fld].
  - apply (F 26%nat 2%nat 1); [lia|rewrite pow2; lia|fld].
  - rewrite <- E. apply (F 28%nat 2%nat (u16 (cc * 8))); [lia|rewrite pow2; lia|fld].
  - apply (F 34%nat 4%nat sz); [lia|rewrite pow4, W32_val; lia|fld].
Qed.

Lemma saved_headers m im x y w h f : area m im x y w h -> saved m im x y w h f ->
  w < 2147483648 -> blen f < W32 ->
  le (bget f) 0 2 = 19778 /\ le (bget f) 10 4 = 54 + (if icc im =? 1 then 1024 else 0) /\
  dib_header (E := mem) f (54 + (if icc im =? 1 then 1024 else 0))
  = Ok (Some (mkDib w h (icc im) 40 true false)).
Proof.
  intros (Hwf & Hr) [Hl Hh Hg Hp] Hw Hf.
  pose proof (wf_cc _ _ Hwf) as Hcc. pose proof (wf_cc_pos _ _ Hwf) as Hc1. pose proof (wf_bounds _ _ Hwf) as (B1 & B2 & B3 & B4).
  pose proof Hr as [Rx Ry Rw Rh Rxw Ryh].
  set (cc := icc im) in *. set (ps := if cc =? 1 then 1024 else 0) in *.
  assert (Hps : ps = 0 \/ ps = 1024) by (unfold ps; destruct (cc =? 1); auto).
  destruct (row_size4 w h cc) as (E1 & L1 & L2); auto; [lia|].
  set (L := row4 w cc) in *. clearbody ps. rewrite W32_val in *.
  assert (Hh30 : h < 2147483648).
  { unfold L, row4, roundup in *. nia. }
  destruct (fields f (u32 (54 + ps + h * L)) (54 + ps) w h cc (h * L)) as (F0 & F10 & F14 & F18 & F22 & F26 & F28 & F34);
    [exact Hh|rewrite W32_val; lia|rewrite W32_val; lia|rewrite W32_val; lia|lia|rewrite W32_val; nia|].
  split; [exact F0|]. split; [exact F10|].
  unfold dib_header. rewrite F14. cbn [Z.eqb Pos.eqb]. unfold info_header. rewrite F14, F18, F22, F26, F28, F34.
  unfold signed32. rewrite (proj2 (Z.ltb_lt w 2147483648)) by lia. rewrite (proj2 (Z.ltb_lt h 2147483648)) by lia.
  rewrite (proj2 (Z.eqb_neq h (-2147483648))) by lia. rewrite (proj2 (Z.ltb_ge h 0)) by lia.
  rewrite (u32_small w), (u32_small h) by (rewrite W32_val; lia).
  rewrite Z.div_mul by lia. rewrite (u8_small cc) by lia. rewrite E1. fold L.
  rewrite (u32_small (L * h)) by (rewrite W32_val; nia).
  cbn [bind]. repeat f_equal.
  rewrite (proj2 (Z.leb_gt w 0)) by lia. rewrite (proj2 (Z.leb_gt h 0)) by lia.
  rewrite (proj2 (Z.eqb_eq (h * L) (L * h))) by lia. rewrite (proj2 (Z.ltb_ge (54 + ps) (40 + 14))) by lia.
  unfold right_bits. destruct Hcc as [-> | [-> | ->]]; reflexivity.
Qed.
