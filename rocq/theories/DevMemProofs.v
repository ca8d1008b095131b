(** Lemmas about the chunks of reserved memory, for the allocators of DevMem.v: as in
    AllocProofs.v, but free neighbours that are not merged are allowed (a sub-buffer that could
    not be made leaves them), and with the alignment of the chunks. *)
From Coq Require Import ZArith List Bool Lia Sorted.
From Verif Require Import Base BaseProofs Alloc AllocProofs DevMem.
Import ListNotations.
Open Scope Z_scope.

(** ** Alignment of the free chunks *)
(** The free chunks of 2^m bytes and more are at multiples of 2^m. *)
Definition algn (m : nat) (fc : list (list Z)) : Prop :=
  forall L o, (m <= L)%nat -> In o (level fc L) -> (2 ^ Z.of_nat m | o).
Lemma pow_dvd a b : (a <= b)%nat -> (2 ^ Z.of_nat a | 2 ^ Z.of_nat b).
Proof.
  intros H. exists (2 ^ Z.of_nat (b - a)). rewrite <- Z.pow_add_r by lia. f_equal. lia.
Qed.
Lemma algn_setl m fc i l : algn m fc -> (forall x, In x l -> (m <= i)%nat -> (2 ^ Z.of_nat m | x)) -> algn m (setl fc i l).
Proof.
  intros H Hl L o HL Ho. rewrite level_setl in Ho. destruct (Nat.eqb_spec L i) as [->|]; [|apply (H L o HL Ho)].
  destruct (i <? length fc)%nat; [apply Hl; assumption|contradiction].
Qed.
Lemma split_down_algn {E} m : forall k start fc fc', @split_down E k start fc = Ok fc' -> (k <= start)%nat ->
  (m <= start - k)%nat -> algn m fc -> algn m fc'.
Proof.
  induction k as [|k IH]; intros start fc fc' H Hk Hm Ha; cbn [split_down] in H; [injection H as <-; exact Ha|].
  destruct (level fc start) as [|o rest] eqn:El; [discriminate|]. destruct start as [|lo]; [lia|].
  assert (Ho : (2 ^ Z.of_nat m | o)) by (apply (Ha (S lo)); [lia|rewrite El; left; reflexivity]).
  apply IH in H; [exact H|lia|lia|]. apply algn_setl.
  - apply algn_setl; [exact Ha|]. intros x Hx Hml. apply In_sinsert in Hx as [->|Hx].
    + apply Z.divide_add_r; [exact Ho|apply pow_dvd; lia].
    + apply In_sinsert in Hx as [->|Hx]; [exact Ho|apply (Ha lo); assumption].
  - intros x Hx _. apply (Ha (S lo)); [lia|]. rewrite El. right. exact Hx.
Qed.
Lemma fill_algn {E} m : forall fuel used size fc fc' M, @fill E fuel used size fc = Ok fc' -> 0 < used ->
  0 <= size < 2 ^ Z.of_nat M -> (M <= 63)%nat -> (2 ^ Z.of_nat M | used) -> algn m fc -> algn m fc'.
Proof.
  induction fuel as [|fuel IH]; intros used size fc fc' M H Hu Hs HM Hd Ha; cbn [fill] in H.
  - destruct (0 <? size); [discriminate|]. injection H as <-. exact Ha.
  - destruct (Z.ltb_spec 0 size) as [Hp|Hp]; [|injection H as <-; exact Ha].
    assert (Hb : size < 2 ^ 63).
    { pose proof (Z.pow_le_mono_r 2 (Z.of_nat M) 63 ltac:(lia) ltac:(lia)). lia. }
    destruct (@fill_level E size) as (lv & Elv & Hr); [lia|]. rewrite Elv in H. cbn [bind] in H.
    destruct (if size <? 2 ^ Z.of_nat lv then _ else _) as [value l]. cbn [fst snd] in Hr. destruct Hr as (-> & Hr1 & Hr2).
    destruct (Z.eqb_spec used 0); [lia|].
    assert (Hlm : (l < M)%nat) by (apply pow_lt_inv; lia). pose proof (pow_pos l). rewrite pow_S in Hr2.
    assert (Hdl : (2 ^ Z.of_nat l | used)) by (apply (Z.divide_trans _ (2 ^ Z.of_nat M)); [apply pow_dvd; lia|exact Hd]).
    destruct (l <? length fc)%nat; [|discriminate]. apply (IH _ _ _ _ l) in H; try lia; [exact H| |].
    + apply Z.divide_add_r; [exact Hdl|apply Z.divide_refl].
    + apply algn_setl; [exact Ha|]. intros x Hx Hml. apply In_sinsert in Hx as [->|Hx]; [|apply (Ha l); assumption].
      apply (Z.divide_trans _ (2 ^ Z.of_nat l)); [apply pow_dvd; lia|exact Hdl].
Qed.
Lemma fill0_algn {E} m size fc : 0 < size < 2 ^ 63 -> @fill E 64 0 size [] = Ok fc -> algn m fc.
Proof.
  intros Hs. assert (Hn : exists n, 64%nat = S n) by (exists 63%nat; reflexivity). destruct Hn as (n & ->). cbn [fill].
  destruct (Z.ltb_spec 0 size); [|lia]. destruct (@fill_level E size Hs) as (lv & -> & Hr). cbn [bind].
  destruct (if size <? 2 ^ Z.of_nat lv then _ else _) as [value l]. cbn [fst snd] in Hr. destruct Hr as (-> & Hr1 & Hr2).
  cbn [Z.eqb]. rewrite repeat_length. destruct (Nat.ltb_spec l (S l)); [|lia]. rewrite level_repeat. cbn [sinsert].
  pose proof (pow_pos l). rewrite pow_S in Hr2.
  assert (Hl63 : (l < 63)%nat). { apply pow_lt_inv. change (Z.of_nat 63) with 63. lia. }
  intros Hf. apply (fill_algn m _ _ _ _ _ l) in Hf; try lia; [exact Hf|apply Z.divide_refl|].
  apply algn_setl.
  - intros L o _ Ho. rewrite level_repeat in Ho. contradiction.
  - intros x [<-|[]] _. apply Z.divide_0_r.
Qed.

(** ** Merging *)
Lemma merge_w {E} m : forall n lv off fc, fok fc -> n = (length fc - lv)%nat -> (lv < length fc)%nat -> (m <= lv)%nat ->
  totF csize 0 fc < 2 ^ Z.of_nat (length fc) -> In off (level fc lv) -> algn m fc ->
  exists fc', @merge E n lv off fc = Ok fc' /\ fok fc' /\ length fc' = length fc /\ algn m fc' /\
    forall f, additive f -> totF f 0 fc' = totF f 0 fc.
Proof.
  induction n as [|n IH]; intros lv off fc Hf En Hl Hm Hz Hi Ha; [lia|].
  cbn [merge]. rewrite (proj2 (smem_In off (level fc lv)) Hi). cbn [negb].
  set (l := level fc lv) in *. pose proof (f_srt _ Hf lv) as Hs. fold l in Hs.
  assert (Hup : forall p, In p l -> In (p + 2 ^ Z.of_nat lv) l -> (S lv < length fc)%nat).
  { intros p Hp Hq. destruct (Nat.lt_ge_cases (S lv) (length fc)) as [H|H]; [exact H|]. exfalso.
    replace (length fc) with (S lv) in Hz by lia. rewrite pow_S in Hz.
    pose proof (totL_le2 csize lv csize_nonneg p (p + 2 ^ Z.of_nat lv) l Hp Hq ltac:(pose proof (pow_pos lv); lia)).
    pose proof (totF_level csize fc lv csize_nonneg). fold l in H1. unfold csize in H0 at 1 2. lia. }
  assert (Hgo : forall p l', In p l -> In (p + 2 ^ Z.of_nat lv) l ->
    srt l' -> (forall x, In x l' <-> In x l /\ x <> p /\ x <> p + 2 ^ Z.of_nat lv) ->
    (forall f, totL f lv l' = totL f lv l - f p lv - f (p + 2 ^ Z.of_nat lv) lv) ->
    exists fc', (do fc0 <- (if (S lv <? length fc)%nat then Ok (setl fc (S lv) (sinsert p (level fc (S lv)))) else UB);
      @merge E n (S lv) p (setl fc0 lv l')) = Ok fc' /\ fok fc' /\ length fc' = length fc /\ algn m fc' /\
      forall f, additive f -> totF f 0 fc' = totF f 0 fc).
  { intros p l' Hp Hq Hs' Hin' Ht'. pose proof (Hup p Hp Hq) as Hul.
    destruct (Nat.ltb_spec (S lv) (length fc)); [|lia]. cbn [bind].
    destruct (merge_step fc lv p Hf Hp Hq Hul l' Hs' Hin' Ht') as (F1 & L1 & I1 & T1 & _).
    assert (A1 : algn m (setl (setl fc (S lv) (sinsert p (level fc (S lv)))) lv l')).
    { apply algn_setl.
      - apply algn_setl; [exact Ha|]. intros x Hx _. apply In_sinsert in Hx as [->|Hx].
        + apply (Ha lv); assumption.
        + apply (Ha (S lv)); [lia|exact Hx].
      - intros x Hx _. apply Hin' in Hx as (Hx & _). apply (Ha lv); assumption. }
    set (fc1 := setl (setl fc (S lv) (sinsert p (level fc (S lv)))) lv l') in *.
    destruct (IH (S lv) p fc1 F1) as (fc' & E' & F' & L' & N' & T'); try lia; try assumption.
    - rewrite T1 by apply csize_additive. rewrite L1. exact Hz.
    - exists fc'. split; [exact E'|]. split; [exact F'|]. split; [congruence|]. split; [exact N'|].
      intros f Hfa. rewrite T' by exact Hfa. apply T1. exact Hfa. }
  assert (Hstop : exists fc', Ok fc = @Ok E _ fc' /\ fok fc' /\ length fc' = length fc /\ algn m fc' /\
      forall f, additive f -> totF f 0 fc' = totF f 0 fc).
  { exists fc. auto. }
  pose proof (pow_pos lv) as Hpp.
  assert (Hleft : exists fc', (match sprev off l with
      | Some p => if off - p =? 2 ^ Z.of_nat lv
          then do fc0 <- (if (S lv <? length fc)%nat then Ok (setl fc (S lv) (sinsert p (level fc (S lv)))) else UB);
               @merge E n (S lv) p (setl fc0 lv (serase off (serase p l)))
          else Ok fc
      | None => Ok fc end) = Ok fc' /\ fok fc' /\ length fc' = length fc /\ algn m fc' /\
      forall f, additive f -> totF f 0 fc' = totF f 0 fc).
  { destruct (sprev off l) as [p|] eqn:Ep; [|exact Hstop].
    destruct (sprev_spec off l p Hs Ep) as (Hp & _ & Hlt).
    destruct (Z.eqb_spec (off - p) (2 ^ Z.of_nat lv)) as [Ed|Nd]; [|exact Hstop].
    assert (Eo : off = p + 2 ^ Z.of_nat lv) by lia. apply Hgo; auto.
    - rewrite <- Eo. exact Hi.
    - apply srt_serase, srt_serase, Hs.
    - intros x. rewrite In_serase by (apply srt_serase, Hs). rewrite In_serase by exact Hs. rewrite <- Eo. tauto.
    - intros f. rewrite totL_serase; [|apply In_serase; [exact Hs|split; [exact Hi|lia]]].
      rewrite totL_serase by exact Hp. rewrite <- Eo. lia. }
  destruct (snext off l) as [q|] eqn:Eq; [|exact Hleft].
  destruct (snext_spec off l q Hs Eq) as (_ & Hq & Hlt).
  destruct (Z.eqb_spec (q - off) (2 ^ Z.of_nat lv)) as [Ed|Nd]; [|exact Hleft].
  assert (Eo : q = off + 2 ^ Z.of_nat lv) by lia. apply Hgo; auto.
  - rewrite <- Eo. exact Hq.
  - apply srt_serase, srt_serase, Hs.
  - intros x. rewrite In_serase by (apply srt_serase, Hs). rewrite In_serase by exact Hs. rewrite <- Eo. tauto.
  - intros f. rewrite totL_serase; [|apply In_serase; [exact Hs|split; [exact Hq|lia]]].
    rewrite totL_serase by exact Hi. rewrite <- Eo. lia.
Qed.

(** ** The invariant *)
Record wok (m : nat) (size : Z) (fc : list (list Z)) (al : list (Z * nat)) : Prop := mkWok {
  w_size : 0 < size < 2 ^ 63;
  w_srt : forall L, srt (level fc L);
  w_cov : forall k, totF (cov k) 0 fc + totA (cov k) al = within 0 size k;
  w_sum : totF csize 0 fc + totA csize al = size;
  w_len : size < 2 ^ Z.of_nat (length fc);
  w_lev : forall o L, In (o, L) al -> (L < length fc)%nat;
  w_free : algn m fc;
  w_al : forall o L, In (o, L) al -> (m <= L)%nat /\ (2 ^ Z.of_nat m | o)
}.
Lemma wok_fok m size fc al : wok m size fc al -> fok fc.
Proof.
  intros H. constructor; [apply (w_srt _ _ _ _ H)|]. intros k. pose proof (w_cov _ _ _ _ H k).
  pose proof (totA_nonneg (cov k) al (cov_nonneg k)). pose proof (within_le 0 size k). lia.
Qed.
Lemma wok_in m size fc al o L : wok m size fc al -> In (o, L) al -> 0 <= o /\ o + 2 ^ Z.of_nat L <= size.
Proof.
  intros H Hi. pose proof (pow_pos L) as Hp.
  assert (G : forall k, o <= k < o + 2 ^ Z.of_nat L -> 0 <= k < size).
  { intros k Hk. pose proof (w_cov _ _ _ _ H k) as E. pose proof (totA_le (cov k) al o L (cov_nonneg k) Hi) as G.
    rewrite cov_in in G by exact Hk. pose proof (totF_nonneg (cov k) (cov_nonneg k) fc 0).
    unfold within in E. destruct (Z.leb_spec 0 k), (Z.ltb_spec k size); cbn in E; lia. }
  pose proof (G o ltac:(lia)). pose proof (G (o + 2 ^ Z.of_nat L - 1) ltac:(lia)). lia.
Qed.
Lemma wok_disj m size fc al o L o' L' : wok m size fc al -> In (o, L) al -> In (o', L') al -> (o, L) <> (o', L') ->
  o + 2 ^ Z.of_nat L <= o' \/ o' + 2 ^ Z.of_nat L' <= o.
Proof.
  intros H Hi Hi' N. pose proof (pow_pos L). pose proof (pow_pos L').
  assert (G : forall k, o <= k < o + 2 ^ Z.of_nat L -> o' <= k < o' + 2 ^ Z.of_nat L' -> False).
  { intros k Hk Hk'. pose proof (totA_le2 (cov k) al o L o' L' (cov_nonneg k) Hi Hi' N) as E.
    rewrite !cov_in in E by assumption. pose proof (w_cov _ _ _ _ H k). pose proof (within_le 0 size k).
    pose proof (totF_nonneg (cov k) (cov_nonneg k) fc 0). lia. }
  destruct (Z.le_gt_cases (o + 2 ^ Z.of_nat L) o'); [auto|]. destruct (Z.le_gt_cases (o' + 2 ^ Z.of_nat L') o); [auto|].
  exfalso. apply (G (Z.max o o')); lia.
Qed.
Lemma wok_key m size fc al o L L' : wok m size fc al -> In (o, L) al -> In (o, L') al -> L = L'.
Proof.
  intros H Hi Hi'. destruct (Nat.eq_dec L L') as [|N]; [assumption|].
  destruct (wok_disj m size fc al o L o L' H Hi Hi') as [G|G]; [congruence| |];
    [pose proof (pow_pos L)|pose proof (pow_pos L')]; lia.
Qed.
Lemma wok_nodup m size fc al : wok m size fc al -> NoDup (map fst al).
Proof.
  intros H. apply arena_nodup. intros k. pose proof (w_cov _ _ _ _ H k). pose proof (within_le 0 size k).
  pose proof (totF_nonneg (cov k) (cov_nonneg k) fc 0). lia.
Qed.

Lemma wok_fill {E} m size : 0 < size < 2 ^ 63 -> exists fc, @fill E 64 0 size [] = Ok fc /\ wok m size fc [].
Proof.
  intros Hs. destruct (@fill0_ok E size Hs) as (fc & Ef & F1 & F2 & F3 & F4 & F5). exists fc. split; [exact Ef|].
  constructor; cbn [totA].
  - exact Hs.
  - exact F1.
  - intros k. rewrite F4. lia.
  - lia.
  - exact F5.
  - intros o L [].
  - apply (fill0_algn m size fc Hs Ef).
  - intros o L [].
Qed.

Lemma wok_split {E} m size fc al lv : wok m size fc al -> (m <= lv)%nat ->
  (exists fc' o rest, @split E lv fc = Ok (Some fc') /\ level fc' lv = o :: rest /\ wok m size fc' al /\
     wok m size (setl fc' lv rest) ((o, lv) :: al) /\ ~ In o (map fst al)) \/
  @split E lv fc = Ok None.
Proof.
  intros H Hm. unfold split. pose proof (find_level_spec fc (length fc - lv) lv) as Hs.
  destruct (find_level lv (length fc - lv) fc) as [s|]; [|right; reflexivity]. left.
  destruct Hs as (Hs1 & Hs2 & Hs3). destruct (level fc s) as [|o r] eqn:Hl; [contradiction|].
  pose proof (wok_fok m size fc al H) as Hf.
  destruct (@split_down_ok E E (s - lv) s fc o r Hf) as (fc' & rest & Ed & F' & L' & V' & T' & _ & _); try lia.
  { exact Hl. } { intros j Hj. apply Hs3. lia. }
  assert (A' : algn m fc').
  { apply (split_down_algn m _ _ _ _ Ed); [lia|lia|apply (w_free _ _ _ _ H)]. }
  replace (s - (s - lv))%nat with lv in * by lia.
  exists fc', o, rest. rewrite Ed. cbn [bind]. split; [reflexivity|]. split; [exact V'|].
  assert (Hlen : (lv < length fc)%nat) by lia.
  pose proof (f_srt _ F' lv) as Hsr. rewrite V' in Hsr. pose proof Hsr as Hsr0. apply srt_cons in Hsr0 as [Hsr1 Hsr2].
  assert (Htot : forall f, additive f -> totF f 0 (setl fc' lv rest) + f o lv = totF f 0 fc).
  { intros f Ha. rewrite totF_set0 by lia. rewrite V'. cbn [totL]. rewrite T' by exact Ha. lia. }
  split; [|split].
  - constructor.
    + apply (w_size _ _ _ _ H).
    + apply (f_srt _ F').
    + intros k. rewrite T' by apply cov_additive. apply (w_cov _ _ _ _ H).
    + rewrite T' by apply csize_additive. apply (w_sum _ _ _ _ H).
    + rewrite L'. apply (w_len _ _ _ _ H).
    + rewrite L'. apply (w_lev _ _ _ _ H).
    + exact A'.
    + apply (w_al _ _ _ _ H).
  - constructor.
    + apply (w_size _ _ _ _ H).
    + intros L. rewrite level_setl. destruct (Nat.eqb_spec L lv); [|apply (f_srt _ F')].
      destruct (Nat.ltb_spec lv (length fc')); [exact Hsr1|constructor].
    + intros k. cbn [totA]. pose proof (Htot (cov k) (cov_additive k)). pose proof (w_cov _ _ _ _ H k). lia.
    + cbn [totA]. pose proof (Htot csize csize_additive). pose proof (w_sum _ _ _ _ H). lia.
    + rewrite len_setl, L'. apply (w_len _ _ _ _ H).
    + intros o' L [E0|Hi]; rewrite len_setl, L'; [injection E0 as <- <-; exact Hlen|apply (w_lev _ _ _ _ H o' L Hi)].
    + apply algn_setl; [exact A'|]. intros x Hx _. apply (A' lv); [exact Hm|]. rewrite V'. right. exact Hx.
    + intros o' L [E0|Hi]; [|apply (w_al _ _ _ _ H o' L Hi)]. injection E0 as <- <-. split; [exact Hm|].
      apply (A' lv); [exact Hm|]. rewrite V'. left. reflexivity.
  - intros Hi. apply in_map_iff in Hi as ([o' L2] & Eo & Hi). cbn in Eo. subst o'.
    pose proof (w_cov _ _ _ _ H o) as C. pose proof (totA_le (cov o) al o L2 (cov_nonneg o) Hi) as C1.
    pose proof (Htot (cov o) (cov_additive o)) as C2. pose proof (totF_nonneg (cov o) (cov_nonneg o) (setl fc' lv rest) 0).
    pose proof (pow_pos lv). pose proof (pow_pos L2). rewrite cov_in in C1, C2 by lia. pose proof (within_le 0 size o). lia.
Qed.
Lemma wok_take {E} m size fc al lv : wok m size fc al -> (m <= lv)%nat ->
  (exists o fc1 fc2, @take_chunk E lv fc = Ok (Some (o, fc1, fc2)) /\ wok m size fc1 al /\
     wok m size fc2 ((o, lv) :: al) /\ ~ In o (map fst al)) \/
  @take_chunk E lv fc = Ok None.
Proof.
  intros H Hm. unfold take_chunk. destruct (@wok_split E m size fc al lv H Hm) as [(fc' & o & rest & -> & V & W1 & W2 & N)| ->].
  - left. cbn [bind]. rewrite V. exists o, fc', (setl fc' lv rest). auto.
  - right. reflexivity.
Qed.
Lemma wok_give {E} m size fc al o lv : wok m size fc al -> In (o, lv) al ->
  exists fc', @give_chunk E o lv fc = Ok fc' /\ wok m size fc' (filter (fun c => negb (fst c =? o)) al).
Proof.
  intros H Hi. pose proof (w_lev _ _ _ _ H o lv Hi) as Hl. pose proof (wok_fok m size fc al H) as Hf.
  destruct (w_al _ _ _ _ H o lv Hi) as (Hm & Hdo).
  assert (Hn : ~ In o (level fc lv)).
  { intros Ho. pose proof (w_cov _ _ _ _ H o) as C. pose proof (totA_le (cov o) al o lv (cov_nonneg o) Hi) as C1.
    pose proof (totL_le (cov o) lv (cov_nonneg o) o _ Ho) as C2. pose proof (totF_level (cov o) fc lv (cov_nonneg o)) as C3.
    pose proof (pow_pos lv). rewrite cov_in in C1, C2 by lia. pose proof (within_le 0 size o). lia. }
  unfold give_chunk. destruct (Nat.ltb_spec lv (length fc)); [|lia].
  set (fc1 := setl fc lv (sinsert o (level fc lv))).
  assert (T1 : forall f, totF f 0 fc1 = totF f 0 fc + f o lv).
  { intros f. unfold fc1. rewrite totF_set0 by exact Hl. rewrite totL_sinsert by exact Hn. lia. }
  assert (L1 : length fc1 = length fc) by apply len_setl.
  assert (V1 : level fc1 lv = sinsert o (level fc lv)) by (apply level_setl_same; exact Hl).
  assert (O1 : forall L, L <> lv -> level fc1 L = level fc L) by (intros L N; apply level_setl_other; auto).
  assert (Hnd : NoDup (map fst al)) by (apply (wok_nodup m size fc al H)).
  assert (F1 : fok fc1).
  { constructor.
    - intros L. destruct (Nat.eq_dec L lv) as [->|N]; [rewrite V1; apply srt_sinsert, (f_srt _ Hf)|rewrite O1 by exact N; apply (f_srt _ Hf)].
    - intros k. rewrite T1. pose proof (w_cov _ _ _ _ H k) as C. pose proof (totA_le (cov k) al o lv (cov_nonneg k) Hi).
      pose proof (within_le 0 size k). lia. }
  assert (A1 : algn m fc1).
  { apply algn_setl; [apply (w_free _ _ _ _ H)|]. intros x Hx Hml. apply In_sinsert in Hx as [->|Hx]; [exact Hdo|].
    apply (w_free _ _ _ _ H lv x Hml Hx). }
  destruct (@merge_w E m (length fc1 - lv) lv o fc1 F1) as (fc' & E' & F' & L' & N' & T'); try lia; try assumption.
  - rewrite T1, L1. pose proof (totA_le csize al o lv csize_nonneg Hi). pose proof (w_sum _ _ _ _ H). pose proof (w_len _ _ _ _ H). lia.
  - rewrite V1. apply In_sinsert. auto.
  - exists fc'. split; [exact E'|]. constructor.
    + apply (w_size _ _ _ _ H).
    + apply (f_srt _ F').
    + intros k. rewrite T' by apply cov_additive. rewrite T1. rewrite (totA_filter (cov k) o lv) by assumption.
      pose proof (w_cov _ _ _ _ H k). lia.
    + rewrite T' by apply csize_additive. rewrite T1. rewrite (totA_filter csize o lv) by assumption.
      pose proof (w_sum _ _ _ _ H). lia.
    + rewrite L', L1. apply (w_len _ _ _ _ H).
    + intros o' L2 Hi'. apply filter_In in Hi' as [Hi' _]. replace (length fc') with (length fc) by congruence.
      apply (w_lev _ _ _ _ H o' L2 Hi').
    + exact N'.
    + intros o' L2 Hi'. apply filter_In in Hi' as [Hi' _]. apply (w_al _ _ _ _ H o' L2 Hi').
Qed.
Lemma wok_perm m size fc al al' : (forall f, totA f al' = totA f al) -> (forall c, In c al' -> In c al) ->
  wok m size fc al -> wok m size fc al'.
Proof.
  intros Ht Hi H. constructor; try apply H.
  - intros k. rewrite Ht. apply (w_cov _ _ _ _ H).
  - rewrite Ht. apply (w_sum _ _ _ _ H).
  - intros o L Ho. apply (w_lev _ _ _ _ H o L (Hi _ Ho)).
  - intros o L Ho. apply (w_al _ _ _ _ H o L (Hi _ Ho)).
Qed.
Lemma totA_app f a b : totA f (a ++ b) = totA f a + totA f b.
Proof. induction a as [|[o L] t IH]; cbn [app totA]; [reflexivity|]. rewrite IH. lia. Qed.
