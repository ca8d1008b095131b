(** Lemmas about Codec.v: the rows of PNG and JPEG images and the images they go to. *)
From Coq Require Import ZArith List Bool Lia.
From Verif Require Import Base BaseProofs Image ImgLemmas Spec ImgFun Container ContainerProofs File FileProofs Codec.
Import ListNotations.
Open Scope Z_scope.

Lemma zseq_length n : 0 <= n -> Z.of_nat (length (zseq n)) = n.
Proof. intros H. unfold zseq. rewrite map_length, seq_length. lia. Qed.
Lemma zseq_in n k : In k (zseq n) <-> 0 <= k < n.
Proof.
  unfold zseq. rewrite in_map_iff. split.
  - intros (i & <- & H). apply in_seq in H. lia.
  - intros H. exists (Z.to_nat k). rewrite in_seq. lia.
Qed.
Lemma zseq_nth n k d : 0 <= k < n -> nth (Z.to_nat k) (zseq n) d = k.
Proof.
  intros H. unfold zseq. rewrite (nth_indep _ d (Z.of_nat 0)) by (rewrite map_length, seq_length; lia).
  rewrite map_nth, seq_nth by lia. lia.
Qed.
Lemma nth_map_zseq {A} (f : Z -> A) n k d : 0 <= k < n -> nth (Z.to_nat k) (map f (zseq n)) d = f k.
Proof.
  intros H. rewrite (nth_indep _ d (f 0)) by (rewrite map_length; pose proof (zseq_length n ltac:(lia)); lia).
  rewrite map_nth. f_equal. apply zseq_nth. exact H.
Qed.
Lemma zseq_S n : 0 <= n -> zseq (n + 1) = zseq n ++ [n].
Proof.
  intros H. unfold zseq. replace (Z.to_nat (n + 1)) with (Z.to_nat n + 1)%nat by lia.
  rewrite seq_app, map_app. cbn [seq map Nat.add]. f_equal. f_equal. lia.
Qed.
Lemma name_eqb_spec a b : reflect (a = b) (name_eqb a b).
Proof. unfold name_eqb. destruct (list_eq_dec Z.eq_dec a b); constructor; assumption. Qed.

(** ** Writing one row of the loaded image *)
Definition swapped (o : Z) : Z := 4 * (o / 3) + (2 - o mod 3).

Lemma png_row_ok rm (gray : bool) y w m out : 0 <= w -> 4 * w <= len rm y -> 0 <= snd out ->
  snd out + w * (if gray then 1 else 3) <= len m (fst out) ->
  exists m', png_row rm gray y w m out = Ok m' /\ same_len m m' /\
    forall q, get m' q = if in_range out (w * (if gray then 1 else 3)) q
      then get rm (y, if gray then 4 * (snd q - snd out) else swapped (snd q - snd out)) else get m q.
Proof.
  intros Hw Hrm Ho Hm. unfold png_row. set (cc := if gray then 1 else 3) in *.
  assert (Hcc : cc = 1 \/ cc = 3) by (unfold cc; destruct gray; auto).
  set (P := fun k (s : mem * ptr * ptr) => snd (fst s) = (y, 4 * k) /\ snd s = padd out (cc * k) /\ same_len m (fst (fst s)) /\
    forall q, get (fst (fst s)) q = if in_range out (cc * k) q
      then get rm (y, if gray then 4 * (snd q - snd out) else swapped (snd q - snd out)) else get m q).
  match goal with |- context [iterM ?n 0 ?g ?s0] => destruct (iterM_inv P g n 0 s0) as ([[m' cp] xp] & -> & Q) end.
  - unfold P. cbn [fst snd]. split; [reflexivity|]. split; [rewrite Z.mul_0_r, padd_0; reflexivity|]. split; [apply same_len_refl|].
    intros q. rewrite in_range_out by lia. reflexivity.
  - intros k [[m1 c1] x1] Hk (Ec & Ex & Hl & Hg). cbn [fst snd] in *. subst c1 x1.
    rewrite Z2Nat.id in Hk by lia.
    assert (B : forall d, 0 <= d < cc -> inb m1 (padd (padd out (cc * k)) d) = true).
    { intros d Hd. rewrite (same_len_inb m m1) by exact Hl. apply inb_iff. unfold padd; cbn [fst snd]. nia. }
    destruct gray.
    + assert (cc = 1) as E1 by reflexivity. rewrite E1 in *.
      rewrite (load_ok rm (y, 4 * k)) by (apply inb_iff; cbn [fst snd]; lia). cbn [bind].
      specialize (B 0 ltac:(lia)). rewrite padd_0 in B. rewrite (store_ok m1 _ _ B). cbn [bind].
      eexists. split; [reflexivity|]. unfold P. cbn [fst snd]. split; [unfold padd; cbn [fst snd]; f_equal; lia|].
      split; [rewrite padd_padd; f_equal; lia|]. split; [intros b; rewrite len_upd; apply Hl|].
      intros q. rewrite get_upd. destruct (ptr_eqb_spec q (padd out (1 * k))) as [->|Nq].
      * rewrite in_range_in by (unfold padd; cbn [fst snd]; lia). f_equal. f_equal. unfold padd; cbn [fst snd]. lia.
      * rewrite Hg. destruct (in_range out (1 * k) q) eqn:R.
        -- apply in_range_spec in R. rewrite in_range_in by lia. reflexivity.
        -- rewrite in_range_out; [reflexivity|]. intros Hf. destruct (Z.eq_dec (snd q) (snd out + k)) as [E|].
           { exfalso. apply Nq. destruct q as [qb qo], out as [ob oo]. unfold padd; cbn [fst snd] in *. f_equal; lia. }
           destruct (Z.lt_ge_cases (snd q) (snd out)); [lia|]. right. destruct (Z.lt_ge_cases (snd q) (snd out + 1 * k)); [|lia].
           rewrite in_range_in in R by lia. discriminate.
    + assert (cc = 3) as E3 by reflexivity. rewrite E3 in *.
      rewrite (load_ok rm (padd (y, 4 * k) 2)) by (apply inb_iff; unfold padd; cbn [fst snd]; lia). cbn [bind].
      pose proof (B 0 ltac:(lia)) as B0. rewrite padd_0 in B0. rewrite (store_ok m1 _ _ B0). cbn [bind].
      rewrite (load_ok rm (padd (y, 4 * k) 1)) by (apply inb_iff; unfold padd; cbn [fst snd]; lia). cbn [bind].
      pose proof (B 1 ltac:(lia)) as B1. rewrite store_ok by (rewrite inb_upd; exact B1). cbn [bind].
      rewrite (load_ok rm (y, 4 * k)) by (apply inb_iff; cbn [fst snd]; lia). cbn [bind].
      pose proof (B 2 ltac:(lia)) as B2. rewrite store_ok by (rewrite !inb_upd; exact B2). cbn [bind].
      eexists. split; [reflexivity|]. unfold P. cbn [fst snd]. split; [unfold padd; cbn [fst snd]; f_equal; lia|].
      split; [rewrite padd_padd; f_equal; lia|]. split; [intros b; rewrite !len_upd; apply Hl|].
      intros q. rewrite !get_upd. rewrite ?E3.
      assert (S : forall d, 0 <= d < 3 -> swapped (3 * k + d) = 4 * k + (2 - d)).
      { intros d Hd. unfold swapped. replace (3 * k + d) with (k * 3 + d) by lia.
        destruct (divmod_flat 3 k d ltac:(lia)) as (-> & ->). reflexivity. }
      destruct (in_range out (3 * (k + 1)) q) eqn:R.
      * apply in_range_spec in R as (Rf & R). destruct (Z.lt_ge_cases (snd q) (snd out + 3 * k)).
        -- assert (N : forall d, 0 <= d -> ptr_eqb q (padd (padd out (3 * k)) d) = false).
           { intros d Hd. destruct (ptr_eqb_spec q (padd (padd out (3 * k)) d)) as [->|]; [|reflexivity]. unfold padd in *; cbn [fst snd] in *. lia. }
           rewrite !N by lia. pose proof (N 0 ltac:(lia)) as N0. rewrite padd_0 in N0. rewrite N0. rewrite Hg.
           rewrite in_range_in by lia. reflexivity.
        -- set (d := snd q - snd out - 3 * k). assert (Hd : d = 0 \/ d = 1 \/ d = 2) by lia.
           assert (Eq : q = padd (padd out (3 * k)) d) by (destruct q, out; unfold padd; cbn [fst snd] in *; f_equal; lia).
           replace (snd q - snd out) with (3 * k + d) by lia. rewrite Eq.
           rewrite <- (padd_0 (padd out (3 * k))) at 6. rewrite !ptr_eqb_padd. rewrite S by lia.
           destruct Hd as [E|[E|E]]; rewrite E; cbn [Z.eqb Pos.eqb]; f_equal; unfold padd; cbn [fst snd]; f_equal; lia.
      * assert (N : forall d, 0 <= d < 3 -> ptr_eqb q (padd (padd out (3 * k)) d) = false).
        { intros d Hd. destruct (ptr_eqb_spec q (padd (padd out (3 * k)) d)) as [->|]; [|reflexivity].
          rewrite in_range_in in R by (unfold padd in *; cbn [fst snd] in *; lia). discriminate. }
        rewrite !N by lia. pose proof (N 0 ltac:(lia)) as N0. rewrite padd_0 in N0. rewrite N0. rewrite Hg.
        rewrite in_range_out; [reflexivity|]. intros Hf. destruct (Z.lt_ge_cases (snd q) (snd out)); [lia|]. right.
        destruct (Z.lt_ge_cases (snd q) (snd out + 3 * k)); [|lia]. rewrite in_range_in in R by lia. discriminate.
  - rewrite Z2Nat.id in Q by lia. destruct Q as (_ & _ & Hl & Hg). cbn [fst snd bind] in *.
    exists m'. split; [reflexivity|]. split; [exact Hl|]. intros q. rewrite Hg. rewrite (Z.mul_comm w cc). reflexivity.
Qed.

(** All rows, of [w * cc] samples each. *)
Lemma png_rows_ok rm (gray : bool) w h m nb : 0 < w -> 0 < h -> (forall y, 0 <= y < h -> 4 * w <= len rm y) ->
  let cc := if gray then 1 else 3 in
  len m nb = h * (w * cc) ->
  exists m', png_rows rm gray w h (w * cc) m (nb, 0) = Ok m' /\ same_len m m' /\
    (forall y o, 0 <= y < h -> 0 <= o < w * cc -> get m' (nb, y * (w * cc) + o) = get rm (y, if gray then 4 * o else swapped o)) /\
    forall b o, b <> nb -> get m' (b, o) = get m (b, o).
Proof.
  intros Hw Hh Hrm cc Hl. unfold png_rows. set (rs := w * cc) in *.
  assert (Hcc : cc = 1 \/ cc = 3) by (unfold cc; destruct gray; auto).
  assert (Hrs : 0 < rs) by (unfold rs; nia).
  set (P := fun k (s : mem * ptr) => snd s = (nb, k * rs) /\ same_len m (fst s) /\
    (forall y o, 0 <= y < k -> 0 <= o < rs -> get (fst s) (nb, y * rs + o) = get rm (y, if gray then 4 * o else swapped o)) /\
    forall b o, b <> nb -> get (fst s) (b, o) = get m (b, o)).
  match goal with |- context [iterM ?n 0 ?g ?s0] => destruct (iterM_inv P g n 0 s0) as ([m' p] & -> & Q) end.
  - unfold P. cbn [fst snd]. split; [reflexivity|]. split; [apply same_len_refl|]. split; [lia|reflexivity].
  - intros k [m1 p] Hk (Ep & Hsl & Hg & Hn). cbn [fst snd] in *. subst p. rewrite Z2Nat.id in Hk by lia.
    destruct (png_row_ok rm gray k w m1 (nb, k * rs) ltac:(lia) (Hrm k ltac:(lia))) as (m2 & E2 & L2 & G2).
    { cbn [snd]. nia. }
    { cbn [fst snd]. rewrite Hsl, Hl. fold cc rs. nia. }
    rewrite E2. cbn [bind]. eexists. split; [reflexivity|]. unfold P. cbn [fst snd]. fold cc rs in G2.
    split; [unfold padd; cbn [fst snd]; f_equal; lia|]. split; [eapply same_len_trans; eassumption|]. split.
    + intros y o Hy Ho. rewrite G2. cbn [fst snd]. destruct (Z.eq_dec y k) as [->|N].
      * rewrite in_range_in by (cbn [fst snd]; lia). replace (k * rs + o - k * rs) with o by lia. reflexivity.
      * rewrite in_range_out by (cbn [fst snd]; nia). apply Hg; lia.
    + intros b o Hb. rewrite G2. rewrite in_range_out by (cbn [fst snd]; lia). apply Hn. exact Hb.
  - rewrite Z2Nat.id in Q by lia. destruct Q as (_ & Hsl & Hg & Hn). cbn [fst snd bind] in *. exists m'. auto.
Qed.

(** ** The layout of the rows *)
(** What the PNG format allows and libpng accepts. *)
Definition png_valid (maxSize : Z) (g : png) : Prop :=
  0 < gw g <= maxSize /\ 0 < gh g <= maxSize /\
  (gtype g = PNG_GRAY /\ In (gdepth g) [1; 2; 4; 8; 16] \/
   gtype g = PNG_PALETTE /\ In (gdepth g) [1; 2; 4; 8] \/
   In (gtype g) [PNG_RGB; PNG_GRAY_ALPHA; PNG_RGB_ALPHA] /\ In (gdepth g) [8; 16]).

Lemma png_layout mx g : png_valid mx g -> png_format g (png_xforms g) = mkFmt false true true 8.
Proof.
  destruct g as [w h t d tr px]. intros (_ & _ & H). unfold png_format, png_xforms. cbn [gtype gdepth gtrns] in *.
  destruct H as [(-> & H)|[(-> & H)|(Ht & H)]].
  - cbn [In] in H. decompose [or] H; subst; try contradiction; destruct tr; reflexivity.
  - cbn [In] in H. decompose [or] H; subst; try contradiction; destruct tr; reflexivity.
  - cbn [In] in Ht, H. decompose [or] Ht; subst; try contradiction; decompose [or] H; subst; try contradiction; destruct tr; reflexivity.
Qed.

Definition png_gray (g : png) : bool := (gtype g =? PNG_GRAY) || (gtype g =? PNG_GRAY_ALPHA).

(** The loaded image. *)
Lemma png_image_ok g m nb junk : png_valid 1431655765 g ->
  exists m' im, png_image g m nb junk = Ok (m', im) /\
    im = mkImage (gw g) (gh g) (if png_gray g then 1 else 3) 1 (gw g * (if png_gray g then 1 else 3)) (Some (nb, 0)) 0 /\
    len m' nb = gh g * irs im /\
    (forall b, b <> nb -> len m' b = len m b /\ forall o, get m' (b, o) = get m (b, o)) /\
    forall x y c, 0 <= x < gw g -> 0 <= y < gh g -> 0 <= c < icc im ->
      get m' (nb, y * irs im + x * icc im + c) = gpix g x y (if png_gray g then 0 else 2 - c).
Proof.
  intros Hv. pose proof Hv as (Hw & Hh & _). unfold png_image. fold (png_gray g).
  rewrite (png_layout _ _ Hv). unfold new_image, dataptr. set (cc := if png_gray g then 1 else 3).
  change (if png_gray g then GRAY_SCALE else RGB) with cc.
  assert (Hcc : cc = 1 \/ cc = 3) by (unfold cc; destruct (png_gray g); auto).
  assert (Er : row_size (gw g) cc 1 = gw g * cc).
  { unfold row_size. rewrite Z.mod_1_r. cbn [Z.eqb negb]. apply u32_small. rewrite W32_val. lia. }
  rewrite Er. cbn [irs idata]. set (rs := gw g * cc).
  set (m1 := fun b => if b =? nb then mkBlock (gh g * rs) junk else m b).
  set (rm := fun y => mkBlock (row_bytes_of (mkFmt false true true 8) (gw g)) (png_byte g (mkFmt false true true 8) y)).
  destruct (png_rows_ok rm (png_gray g) (gw g) (gh g) m1 nb) as (m' & E & L & G & N); try lia.
  { intros y _. unfold rm, len, row_bytes_of, channels. cbn [blen fPalette fColor fFourth fDepth]. lia. }
  { unfold len, m1. rewrite Z.eqb_refl. reflexivity. }
  fold cc rs in E, G. rewrite E. cbn [bind]. eexists _, _. split; [reflexivity|]. split; [reflexivity|]. cbn [irs icc].
  split; [rewrite L; unfold len, m1; rewrite Z.eqb_refl; reflexivity|]. split.
  - intros b Hb. rewrite L. unfold len, m1. destruct (Z.eqb_spec b nb); [contradiction|]. split; [reflexivity|].
    intros o. rewrite N by exact Hb. unfold get, m1. cbn [fst]. destruct (Z.eqb_spec b nb); [contradiction|]. reflexivity.
  - intros x y c Hx Hy Hc. replace (y * rs + x * cc + c) with (y * rs + (x * cc + c)) by lia.
    rewrite G by (unfold rs in *; nia). unfold get, rm. cbn [fst snd bget]. unfold png_byte. cbn [fDepth fColor Z.eqb Pos.eqb].
    unfold channels. cbn [fPalette fColor fFourth]. change (3 + 1) with 4. unfold cc in *.
    destruct (png_gray g).
    + replace (4 * (x * 1 + c)) with (x * 4 + 0) by lia. destruct (divmod_flat 4 x 0 ltac:(lia)) as (-> & ->). reflexivity.
    + unfold swapped. destruct (divmod_flat 3 x c ltac:(lia)) as (-> & ->).
      replace (4 * x + (2 - c)) with (x * 4 + (2 - c)) by lia. destruct (divmod_flat 4 x (2 - c) ltac:(lia)) as (-> & ->). reflexivity.
Qed.

(** ** Putting a new image in the place of an old one *)
Lemma move_in_ok c a old m new : cinv c -> cim c a = Some old -> img_ok new ->
  (forall b, b <> cnext c -> len m b = len (cmem c) b /\ forall o, get m (b, o) = get (cmem c) (b, o)) ->
  (forall p, idata new = Some p -> p = (cnext c, 0) /\ ih new * irs new <= len m (cnext c)) ->
  exists c', move_in c a m new = Ok c' /\ cinv c' /\ cim c' a = Some new /\ frame c c' (eq a) /\
    (forall b, b <> a -> cim c b = None -> cim c' b = None) /\
    len (cmem c') (cnext c) = len m (cnext c) /\ forall o, get (cmem c') (cnext c, o) = get m (cnext c, o).
Proof.
  intros I Ea Hok Hm Hn. unfold move_in. rewrite Ea.
  set (l1 := fun b => match idata new with Some _ => if b =? cnext c then true else clive c b | None => clive c b end).
  set (n1 := match idata new with Some _ => cnext c + 1 | None => cnext c end).
  set (c1 := match idata new with Some _ => _ | None => _ end).
  assert (E1 : c1 = mkC (cim c) m l1 n1) by (unfold c1, l1, n1; destruct (idata new); reflexivity).
  clearbody c1. subst c1.
  assert (Hold : forall b, clive c b = true -> b < cnext c) by (apply (ci_next _ I)).
  assert (Hl1 : forall b, l1 b = true <-> clive c b = true \/ (b = cnext c /\ idata new <> None)).
  { intros b. unfold l1. destruct (idata new) as [p|] eqn:D.
    - destruct (Z.eqb_spec b (cnext c)).
      + split; [intros _; right; split; [assumption|discriminate]|reflexivity].
      + split; [auto|]. intros [H|(H & _)]; [exact H|contradiction].
    - split; [auto|]. intros [H|(_ & H)]; [exact H|congruence]. }
  (* the state after the destruction of the temporary, in general form *)
  assert (Core : forall gone m2 l2, (forall b, gone b = true -> owns c a b) -> (forall b, owns c a b -> gone b = true) ->
    (forall b, gone b = false -> len m2 b = len m b /\ forall o, get m2 (b, o) = get m (b, o)) ->
    (forall b, l2 b = true <-> l1 b = true /\ gone b = false) ->
    let c' := set_img (mkC (cim c) m2 l2 n1) a (Some new) in
    cinv c' /\ cim c' a = Some new /\ frame c c' (eq a) /\
    (forall b, b <> a -> cim c b = None -> cim c' b = None) /\
    len (cmem c') (cnext c) = len m (cnext c) /\ forall o, get (cmem c') (cnext c, o) = get m (cnext c, o)).
  { intros gone m2 l2 G1 G2 M2 L2. cbv zeta. set (c' := set_img _ _ _).
    assert (Lv : forall b im p, cim c b = Some im -> idata im = Some p -> snd p = 0 /\ clive c (fst p) = true /\ fst p < cnext c /\ owns c b (fst p)).
    { intros b im p E D. destruct (ci_buf _ I b im p E D) as (S0 & L & _). split; [exact S0|]. split; [exact L|].
      split; [apply Hold; exact L|]. exists im. split; [exact E|]. rewrite D. destruct p as [pb po]; cbn [fst snd] in *; subst po; reflexivity. }
    assert (Gn : gone (cnext c) = false).
    { destruct (gone (cnext c)) eqn:G; [|reflexivity]. apply G1 in G as (im & E & D). destruct (Lv _ _ _ E D) as (_ & _ & H & _). cbn in H. lia. }
    assert (Sa : cim c' a = Some new) by apply set_same.
    assert (So : forall b, b <> a -> cim c' b = cim c b) by (intros b Hb; unfold c'; rewrite set_other by exact Hb; reflexivity).
    assert (Keep : forall b im p, b <> a -> cim c b = Some im -> idata im = Some p -> gone (fst p) = false).
    { intros b im p Hb E D. destruct (gone (fst p)) eqn:G; [|reflexivity]. exfalso. apply Hb.
      destruct (Lv _ _ _ E D) as (_ & _ & _ & O). apply (ci_excl _ I b a (fst p) O). apply G1. exact G. }
    assert (Ow : forall b k, owns c' b k <-> (b = a /\ idata new = Some (k, 0)) \/ (b <> a /\ owns c b k)).
    { intros b k. unfold owns. destruct (Z.eq_dec b a) as [->|N].
      - rewrite Sa. split.
        + intros (im & E & D). injection E as <-. left. auto.
        + intros [(_ & D)|(N & _)]; [exists new; auto|contradiction].
      - rewrite (So b N). split; [intros H; right; auto|]. intros [(H & _)|(_ & H)]; [contradiction|exact H]. }
    split; [constructor|].
    - intros b im E. destruct (Z.eq_dec b a) as [->|N].
      + rewrite Sa in E. injection E as <-. exact Hok.
      + rewrite (So b N) in E. apply (ci_img _ I b im E).
    - intros b im p E D. destruct (Z.eq_dec b a) as [->|N].
      + rewrite Sa in E. injection E as <-. destruct (Hn p D) as (-> & Hs). cbn [fst snd]. split; [reflexivity|]. split.
        * apply L2. split; [|exact Gn]. apply Hl1. right. split; [reflexivity|congruence].
        * change (cmem c') with m2. rewrite (proj1 (M2 _ Gn)). exact Hs.
      + rewrite (So b N) in E. destruct (Lv b im p E D) as (S0 & L & Lt & O). split; [exact S0|]. pose proof (Keep b im p N E D) as K. split.
        * apply L2. split; [|exact K]. apply Hl1. left. exact L.
        * change (cmem c') with m2. rewrite (proj1 (M2 _ K)). rewrite (proj1 (Hm (fst p) ltac:(lia))). apply (ci_buf _ I b im p E D).
    - intros b b' k O1 O2. apply Ow in O1, O2. destruct O1 as [(-> & D1)|(N1 & O1)], O2 as [(-> & D2)|(N2 & O2)]; [reflexivity| | |].
      + exfalso. destruct (Hn _ D1) as (Ek & _). injection Ek as ->. destruct O2 as (im & E & D). destruct (Lv _ _ _ E D) as (_ & _ & H & _). cbn in H. lia.
      + exfalso. destruct (Hn _ D2) as (Ek & _). injection Ek as ->. destruct O1 as (im & E & D). destruct (Lv _ _ _ E D) as (_ & _ & H & _). cbn in H. lia.
      + apply (ci_excl _ I b b' k O1 O2).
    - intros k L. apply L2 in L as (L & K). apply Hl1 in L as [L|(-> & D)].
      + destruct (ci_leak _ I k L) as (b & O). exists b. apply Ow. right. split; [|exact O]. intros ->. rewrite (G2 k O) in K. discriminate.
      + exists a. apply Ow. left. split; [reflexivity|]. destruct (idata new) as [p|] eqn:D'; [|congruence]. destruct (Hn p eq_refl) as (-> & _). reflexivity.
    - intros k L. apply L2 in L as (L & _). apply Hl1 in L as [L|(-> & D)]; change (cnext c') with n1; unfold n1.
      + pose proof (Hold k L). destruct (idata new); lia.
      + destruct (idata new); [lia|congruence].
    - split; [exact Sa|]. split; [|split; [intros b Hb Hz; rewrite (So b Hb); exact Hz|]].
      + intros b im Hb E. assert (N : b <> a) by congruence. split; [rewrite (So b N); exact E|]. intros p D.
        destruct (Lv b im p E D) as (_ & _ & Lt & _). pose proof (Keep b im p N E D) as K. change (cmem c') with m2.
        destruct (M2 _ K) as (A1 & A2). destruct (Hm (fst p) ltac:(lia)) as (B1 & B2). split; [congruence|]. intros o. rewrite A2. apply B2.
      + change (cmem c') with m2. apply M2. exact Gn. }
  destruct (idata old) as [p|] eqn:D.
  - destruct (ci_buf _ I a old p Ea D) as (S0 & L & _). unfold dealloc. cbn [clive cmem cim cnext].
    rewrite (proj2 (Hl1 (fst p)) (or_introl L)), S0. cbn [andb Z.eqb bind]. eexists. split; [reflexivity|].
    apply (Core (fun b => b =? fst p)).
    + intros b H. apply Z.eqb_eq in H. subst b. exists old. split; [exact Ea|]. rewrite D. destruct p as [pb po]; cbn [fst snd] in *; subst po; reflexivity.
    + intros b (im & E & D'). assert (im = old) by congruence. subst im. rewrite D in D'. injection D' as ->. apply Z.eqb_refl.
    + intros b H. unfold len, get. cbn [fst snd]. rewrite H. auto.
    + intros b. destruct (b =? fst p); split; [discriminate|intros (_ & H); discriminate|auto|intros (H & _); exact H].
  - cbn [bind]. eexists. split; [reflexivity|]. apply (Core (fun _ => false)); try discriminate.
    + intros b (im & E & D'). congruence.
    + auto.
    + intros b. tauto.
Qed.

(** ** Reading the rows to be saved *)
Definition reversed (o : Z) : Z := 3 * (o / 3) + (2 - o mod 3).

Lemma png_out_row_ok m (gray : bool) y w rm out : 0 <= w ->
  let n := if gray then 1 else 3 in
  w * n <= len rm y -> (0 < w -> 0 <= snd out /\ snd out + w * n <= len m (fst out)) ->
  exists rm', png_out_row m gray y w rm out = Ok rm' /\ same_len rm rm' /\
    forall q, get rm' q = if in_range (y, 0) (w * n) q
      then get m (padd out (if gray then snd q else reversed (snd q))) else get rm q.
Proof.
  intros Hw n Hrm Ho. unfold png_out_row.
  set (P := fun k (s : mem * ptr * ptr) => snd (fst s) = (y, n * k) /\ snd s = padd out (n * k) /\ same_len rm (fst (fst s)) /\
    forall q, get (fst (fst s)) q = if in_range (y, 0) (n * k) q
      then get m (padd out (if gray then snd q else reversed (snd q))) else get rm q).
  match goal with |- context [iterM ?n 0 ?g ?s0] => destruct (iterM_inv P g n 0 s0) as ([[m' cp] xp] & -> & Q) end.
  - unfold P. cbn [fst snd]. split; [f_equal; lia|]. split; [rewrite Z.mul_0_r, padd_0; reflexivity|]. split; [apply same_len_refl|].
    intros q. rewrite in_range_out by (cbn [fst snd]; lia). reflexivity.
  - intros k [[m1 c1] x1] Hk (Ec & Ex & Hl & Hg). cbn [fst snd] in *. subst c1 x1.
    rewrite Z2Nat.id in Hk by lia.
    assert (Bo : forall d, 0 <= d < n -> inb m (padd (padd out (n * k)) d) = true).
    { intros d Hd. apply inb_iff. unfold padd; cbn [fst snd]. assert (n = 1 \/ n = 3) by (unfold n; destruct gray; auto). nia. }
    assert (Bc : forall d, 0 <= d < n -> inb m1 (padd (y, n * k) d) = true).
    { intros d Hd. rewrite (same_len_inb rm m1) by exact Hl. apply inb_iff. unfold padd; cbn [fst snd].
      assert (n = 1 \/ n = 3) by (unfold n; destruct gray; auto). nia. }
    destruct gray.
    + assert (n = 1) as E1 by reflexivity. rewrite E1 in *.
      pose proof (Bo 0 ltac:(lia)) as B0. rewrite padd_0 in B0. rewrite (load_ok m _ B0). cbn [bind].
      pose proof (Bc 0 ltac:(lia)) as C0. rewrite padd_0 in C0. rewrite (store_ok m1 _ _ C0). cbn [bind].
      eexists. split; [reflexivity|]. unfold P. cbn [fst snd]. rewrite ?E1. split; [unfold padd; cbn [fst snd]; f_equal; lia|].
      split; [rewrite padd_padd; f_equal; lia|]. split; [intros b; rewrite len_upd; apply Hl|].
      intros q. rewrite get_upd. destruct (ptr_eqb_spec q (y, 1 * k)) as [->|Nq].
      * rewrite in_range_in by (cbn [fst snd]; lia). cbn [snd]. reflexivity.
      * rewrite Hg. destruct (in_range (y, 0) (1 * k) q) eqn:R.
        -- apply in_range_spec in R. cbn [fst snd] in R. rewrite in_range_in by (cbn [fst snd]; lia). reflexivity.
        -- rewrite in_range_out; [reflexivity|]. cbn [fst snd]. intros Hf. destruct (Z.eq_dec (snd q) k) as [E|].
           { exfalso. apply Nq. destruct q as [qb qo]. cbn [fst snd] in *. f_equal; lia. }
           destruct (Z.lt_ge_cases (snd q) 0); [lia|]. right. destruct (Z.lt_ge_cases (snd q) (1 * k)); [|lia].
           rewrite in_range_in in R by (cbn [fst snd]; lia). discriminate.
    + assert (n = 3) as E3 by reflexivity. rewrite E3 in *.
      pose proof (Bo 0 ltac:(lia)) as B0. rewrite padd_0 in B0. rewrite (load_ok m _ B0). cbn [bind].
      rewrite (store_ok m1 _ _ (Bc 2 ltac:(lia))). cbn [bind].
      rewrite (load_ok m _ (Bo 1 ltac:(lia))). cbn [bind]. rewrite store_ok by (rewrite inb_upd; apply Bc; lia). cbn [bind].
      rewrite (load_ok m _ (Bo 2 ltac:(lia))). cbn [bind].
      pose proof (Bc 0 ltac:(lia)) as C0. rewrite padd_0 in C0. rewrite store_ok by (rewrite !inb_upd; exact C0). cbn [bind].
      eexists. split; [reflexivity|]. unfold P. cbn [fst snd]. rewrite ?E3. split; [unfold padd; cbn [fst snd]; f_equal; lia|].
      split; [rewrite padd_padd; f_equal; lia|]. split; [intros b; rewrite !len_upd; apply Hl|].
      intros q. rewrite !get_upd.
      assert (S : forall d, 0 <= d < 3 -> reversed (3 * k + d) = 3 * k + (2 - d)).
      { intros d Hd. unfold reversed. replace (3 * k + d) with (k * 3 + d) by lia.
        destruct (divmod_flat 3 k d ltac:(lia)) as (-> & ->). lia. }
      destruct (in_range (y, 0) (3 * (k + 1)) q) eqn:R.
      * apply in_range_spec in R as (Rf & R). cbn [fst snd] in Rf, R. destruct (Z.lt_ge_cases (snd q) (3 * k)).
        -- assert (N : forall d, 0 <= d -> ptr_eqb q (padd (y, 3 * k) d) = false).
           { intros d Hd. destruct (ptr_eqb_spec q (padd (y, 3 * k) d)) as [->|]; [|reflexivity]. unfold padd in *; cbn [fst snd] in *. lia. }
           rewrite !N by lia. pose proof (N 0 ltac:(lia)) as N0. rewrite padd_0 in N0. rewrite N0. rewrite Hg.
           rewrite in_range_in by (cbn [fst snd]; lia). reflexivity.
        -- set (d := snd q - 3 * k). assert (Hd : d = 0 \/ d = 1 \/ d = 2) by lia.
           assert (Eq : q = padd (y, 3 * k) d) by (destruct q; unfold padd; cbn [fst snd] in *; f_equal; lia).
           replace (snd q) with (3 * k + d) by lia. rewrite S by lia. rewrite Eq.
           rewrite <- (padd_0 (y, 3 * k)) at 2. rewrite !ptr_eqb_padd.
           destruct Hd as [E|[E|E]]; rewrite E; cbn [Z.eqb Pos.eqb]; f_equal; rewrite ?padd_padd; f_equal; lia.
      * assert (N : forall d, 0 <= d < 3 -> ptr_eqb q (padd (y, 3 * k) d) = false).
        { intros d Hd. destruct (ptr_eqb_spec q (padd (y, 3 * k) d)) as [->|]; [|reflexivity].
          rewrite in_range_in in R by (unfold padd in *; cbn [fst snd] in *; lia). discriminate. }
        rewrite !N by lia. pose proof (N 0 ltac:(lia)) as N0. rewrite padd_0 in N0. rewrite N0. rewrite Hg.
        rewrite in_range_out; [reflexivity|]. cbn [fst snd]. intros Hf. destruct (Z.lt_ge_cases (snd q) 0); [lia|]. right.
        destruct (Z.lt_ge_cases (snd q) (3 * k)); [|lia]. rewrite in_range_in in R by (cbn [fst snd]; lia). discriminate.
  - rewrite Z2Nat.id in Q by lia. destruct Q as (_ & _ & Hl & Hg). cbn [fst snd bind] in *.
    exists m'. split; [reflexivity|]. split; [exact Hl|]. intros q. rewrite Hg. rewrite (Z.mul_comm w n). reflexivity.
Qed.

(** The rows of a region as they go to libpng. *)
Definition out_byte (m : mem) (im : image) (gray : bool) (x y j o : Z) : Z :=
  get m (padd (origin im x y (icc im)) (j * irs im + (if gray then o else reversed o))).

Lemma png_out_rows_ok m im (gray : bool) x y w h junk : area m im x y w h -> (gray = false -> 3 <= icc im) ->
  let n := w * (if gray then 1 else 3) in
  exists rm, png_out_rows m im gray x y w h junk = Ok rm /\
    rows_of rm n h = map (fun j => map (out_byte m im gray x y j) (zseq n)) (zseq h).
Proof.
  intros (Hwf & Hr) Hcc n. unfold png_out_rows.
  pose proof (wf_cc_pos _ _ Hwf) as Hc1. pose proof Hr as [Rx Ry Rw Rh Rxw Ryh].
  rewrite (row_ptr_origin m im x y w h) by (auto; lia). set (o0 := origin im x y (icc im)).
  assert (En : (if gray then w else w * 3) = n) by (unfold n; destruct gray; lia). rewrite En.
  set (P := fun k (s : mem * ptr) => snd s = padd o0 (k * irs im) /\ (forall b, len (fst s) b = n) /\
    forall j o, 0 <= j < k -> 0 <= o < n -> get (fst s) (j, o) = out_byte m im gray x y j o).
  match goal with |- context [iterM ?k 0 ?g ?s0] => destruct (iterM_inv P g k 0 s0) as ([rm p] & -> & Q) end.
  - unfold P. cbn [fst snd]. split; [rewrite Z.mul_0_l, padd_0; reflexivity|]. split; [reflexivity|lia].
  - intros k [r1 p] Hk (Ep & Hl & Hg). cbn [fst snd] in *. subst p. rewrite Z2Nat.id in Hk by lia.
    assert (Hn : n <= w * icc im) by (unfold n; destruct gray; [nia|specialize (Hcc eq_refl); nia]).
    destruct (png_out_row_ok m gray k w r1 (padd o0 (k * irs im))) as (r2 & E2 & L2 & G2); [lia|rewrite Hl; unfold n; lia| |].
    { intros _. pose proof (cell_inb m im x y w h 0 k Hwf Hr ltac:(nia) ltac:(lia)) as I1.
      pose proof (cell_inb m im x y w h (w * icc im - 1) k Hwf Hr ltac:(nia) ltac:(lia)) as I2.
      apply inb_iff in I1, I2. fold o0 in I1, I2. fold n. unfold padd in *; cbn [fst snd] in *. lia. }
    fold n in G2. rewrite E2. cbn [bind]. eexists. split; [reflexivity|]. unfold P. cbn [fst snd].
    split; [rewrite padd_padd; f_equal; lia|]. split; [intros b; rewrite L2; apply Hl|].
    intros j o Hj Ho. rewrite G2. destruct (Z.eq_dec j k) as [->|Nj].
    + rewrite in_range_in by (cbn [fst snd]; lia). cbn [snd]. rewrite padd_padd. reflexivity.
    + rewrite in_range_out by (cbn [fst snd]; lia). apply Hg; lia.
  - rewrite Z2Nat.id in Q by lia. destruct Q as (_ & _ & Hg). cbn [fst snd bind] in *. exists rm. split; [reflexivity|].
    unfold rows_of. apply map_ext_in. intros j Hj. apply map_ext_in. intros o Ho. apply zseq_in in Hj, Ho. apply Hg; lia.
Qed.

(** ** JPEG *)
Lemma jpg_lines_ok j m im nb : idata im = Some (nb, 0) -> 0 < jw j -> 0 < jh j -> 0 < jcomp j -> jw j * jcomp j <= irs im ->
  jh j * irs im <= len m nb ->
  irs im * (jh j - 1) < W32 ->
  exists m', jpg_lines j m im = Ok m' /\ same_len m m' /\
    (forall y o, 0 <= y < jh j -> 0 <= o < jw j * jcomp j -> get m' (nb, y * irs im + o) = jpix j (o / jcomp j) y (o mod jcomp j)) /\
    forall b o, b <> nb -> get m' (b, o) = get m (b, o).
Proof.
  intros Hd Hw Hh Hc Hrs Hlen H32. unfold jpg_lines, dataptr. rewrite Hd.
  set (n := jw j * jcomp j) in *. assert (Hn : 0 < n) by (unfold n; nia).
  set (P := fun k (m' : mem) => same_len m m' /\
    (forall y o, 0 <= y < k -> 0 <= o < n -> get m' (nb, y * irs im + o) = jpix j (o / jcomp j) y (o mod jcomp j)) /\
    forall b o, b <> nb -> get m' (b, o) = get m (b, o)).
  match goal with |- context [iterM ?k 0 ?g ?s0] => destruct (iterM_inv P g k 0 s0) as (m' & -> & Q) end.
  - split; [apply same_len_refl|]. split; [lia|reflexivity].
  - intros k m1 Hk (L & G & N). rewrite Z2Nat.id in Hk by lia. rewrite (u32_small (irs im * k)) by nia.
    destruct (@blit_ok mem m1 (padd (nb, 0) (irs im * k)) n (fun o => jpix j (o / jcomp j) k (o mod jcomp j))) as (m2 & E2 & L2 & G2).
    { right. unfold padd; cbn [fst snd]. rewrite L. nia. }
    fold n. rewrite E2. exists m2. split; [reflexivity|]. split; [eapply same_len_trans; eassumption|]. split.
    + intros y o Hy Ho. rewrite G2. unfold padd; cbn [fst snd]. destruct (Z.eq_dec y k) as [->|Ny].
      * rewrite in_range_in by (cbn [fst snd]; lia). replace (k * irs im + o - (0 + irs im * k)) with o by lia. reflexivity.
      * rewrite in_range_out by (cbn [fst snd]; nia). apply G; lia.
    + intros b o Hb. rewrite G2. rewrite in_range_out by (unfold padd; cbn [fst snd]; lia). apply N. exact Hb.
  - rewrite Z2Nat.id in Q by lia. exists m'. split; [reflexivity|]. exact Q.
Qed.

Lemma jpg_out_rows_ok m im w h : area m im 0 0 w h ->
  jpg_out_rows m im w h = Ok (map (fun j => map (fun o => get m (padd (ibase im) (j * irs im + o))) (zseq (w * icc im))) (zseq h)).
Proof.
  intros (Hwf & Hr). unfold jpg_out_rows. pose proof (wf_cc_pos _ _ Hwf) as Hc1. pose proof Hr as [Rx Ry Rw Rh Rxw Ryh].
  pose proof (wf_size _ _ Hwf) as Hs. pose proof (wf_rs_pos _ _ Hwf) as Hrs.
  assert (Hd : dataptr im = ibase im).
  { unfold dataptr, ibase. destruct (idata im) eqn:E; [reflexivity|]. destruct (wf_data _ _ Hwf E). }
  set (row := fun j => map (fun o => get m (padd (ibase im) (j * irs im + o))) (zseq (w * icc im))).
  match goal with |- context [iterM ?kk 0 ?g ?s0] => destruct (iterM_inv (fun i s => 0 <= i -> s = map row (zseq i)) g kk 0 s0) as (rows & E & Q) end.
  - reflexivity.
  - intros k s Hk Es. rewrite Z2Nat.id in Hk by lia. rewrite (Es ltac:(lia)). unfold jpg_out_row. rewrite Hd.
    rewrite (u32_small (irs im * k)) by nia.
    rewrite (proj2 (range_ok_true m _ (w * icc im))).
    2:{ right. pose proof (cell_inb m im 0 0 w h 0 k Hwf Hr ltac:(nia) ltac:(lia)) as I1.
        pose proof (cell_inb m im 0 0 w h (w * icc im - 1) k Hwf Hr ltac:(nia) ltac:(lia)) as I2.
        apply inb_iff in I1, I2. unfold origin, padd in *; cbn [fst snd] in *. lia. }
    cbn [bind]. eexists. split; [reflexivity|]. intros _. rewrite zseq_S by lia. rewrite map_app. cbn [map]. f_equal. f_equal.
    unfold row. apply map_ext. intros o. rewrite padd_padd. f_equal. f_equal. lia.
  - rewrite Z2Nat.id in Q by lia. rewrite E. f_equal. apply Q. lia.
Qed.
