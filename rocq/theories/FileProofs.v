(** Proofs about bitmap and raw image files. *)
From Coq Require Import ZArith List Bool Lia.
From Verif Require Import Base Image Spec BaseProofs ImgFun ImgLemmas Container ContainerProofs File.
Import ListNotations.
Open Scope Z_scope.
Ltac Zify.zify_post_hook ::= Z.div_mod_to_equations.

(** ** Ranges of bytes *)

Lemma range_ok_true m p n : range_ok m p n = true <-> n <= 0 \/ 0 <= snd p /\ snd p + n <= len m (fst p).
Proof.
  unfold range_ok. rewrite Bool.orb_true_iff, Bool.andb_true_iff, !Z.leb_le. tauto.
Qed.

Definition in_range (p : ptr) (n : Z) (q : ptr) : bool :=
  (fst q =? fst p) && ((snd p <=? snd q) && (snd q <? snd p + n)).

Lemma in_range_spec p n q : in_range p n q = true <-> fst q = fst p /\ snd p <= snd q < snd p + n.
Proof.
  unfold in_range. rewrite !Bool.andb_true_iff, Z.eqb_eq, Z.leb_le, Z.ltb_lt. tauto.
Qed.
Lemma in_range_out p n q : (fst q = fst p -> snd q < snd p \/ snd p + n <= snd q) -> in_range p n q = false.
Proof.
  intros H. destruct (in_range p n q) eqn:E; auto. apply in_range_spec in E. lia.
Qed.
Lemma in_range_in p n q : fst q = fst p -> snd p <= snd q < snd p + n -> in_range p n q = true.
Proof. intros. apply in_range_spec. auto. Qed.

Lemma blit_ok {E} m p n g : n <= 0 \/ 0 <= snd p /\ snd p + n <= len m (fst p) ->
  exists m', @blit E m p n g = Ok m' /\ same_len m m' /\
    forall q, get m' q = if in_range p n q then g (snd q - snd p) else get m q.
Proof.
  intros H. unfold blit. rewrite (proj2 (range_ok_true m p n) H). eexists. split; [reflexivity|]. split.
  - intros b. unfold len. destruct (b =? fst p); reflexivity.
  - intros [b o]. unfold get, in_range. cbn [fst snd]. destruct (b =? fst p); cbn [andb bget]; reflexivity.
Qed.

Lemma copy_range_ok {E} m d s n : 0 <= n -> (fst d = fst s -> n <= Z.abs (snd d - snd s)) ->
  0 <= snd d -> snd d + n <= len m (fst d) -> 0 <= snd s -> snd s + n <= len m (fst s) ->
  exists m', @copy_range E m d s n = Ok m' /\ same_len m m' /\
    forall q, get m' q = if in_range d n q then get m (padd s (snd q - snd d)) else get m q.
Proof.
  intros Hn Ho Hd Hd' Hs Hs'. unfold copy_range.
  replace (overlaps d s n) with false.
  2:{ symmetry. unfold overlaps. destruct (Z.eqb_spec (fst d) (fst s)); auto. specialize (Ho e).
      apply Z.ltb_ge. assumption. }
  rewrite (proj2 (range_ok_true m s n)) by auto.
  apply (blit_ok m d n (fun i => get m (padd s i))). auto.
Qed.

(** ** A rule for loops *)
Lemma loop_rule {E S} (P : S -> Prop) (mu : S -> Z) cond (body : S -> res E S) :
  (forall s, P s -> 0 <= mu s) ->
  (forall s, P s -> cond s = true -> exists s', body s = Ok s' /\ P s' /\ mu s' < mu s) ->
  forall fuel s, P s -> mu s < Z.of_nat fuel ->
  exists s', loop fuel cond body s = Ok s' /\ P s' /\ cond s' = false.
Proof.
  intros H0 Hb. induction fuel as [|fuel IH]; intros s Hp Hm.
  - specialize (H0 s Hp). lia.
  - cbn [loop]. destruct (cond s) eqn:C; [|exists s; auto].
    destruct (Hb s Hp C) as (s1 & -> & P1 & M1). cbn [bind]. apply IH; auto; lia.
Qed.

(** ** Reading *)

(** What a read leaves in memory: bytes of the file, or what was there before. *)
Definition from_file (f : file) (m m' : mem) (q : ptr) : Prop :=
  get m' q = get m q \/ exists o, 0 <= o < blen f /\ get m' q = bget f o.

Lemma in_range_sub p n n' q : n <= n' -> in_range p n' q = false -> in_range p n q = false.
Proof.
  intros H H1. destruct (in_range p n q) eqn:E; auto. apply in_range_spec in E.
  rewrite in_range_in in H1; [discriminate|tauto|lia].
Qed.

Lemma read_blocks_ok {E} f m p total s : 0 <= blen f ->
  0 <= total -> (total = 0 \/ 0 <= snd p /\ snd p + total <= len m (fst p)) -> 0 <= spos s ->
  exists m' s', @read_blocks E f m p total s = Ok (m', s') /\ same_len m m' /\ 0 <= spos s' /\
    (forall q, in_range p total q = false -> get m' q = get m q) /\
    (forall q, from_file f m m' q) /\
    (sfail s = false -> spos s + total <= blen f ->
       s' = mkStream (spos s + total) false /\
       forall i, 0 <= i < total -> get m' (padd p i) = bget f (spos s + i)).
Proof.
  intros Hf Ht Hp Hs. unfold read_blocks.
  set (mu := fun r => (rleft r + blockSize - 1) / blockSize).
  set (P := fun r =>
    0 <= rleft r /\ rdone r = total - rleft r /\ 0 <= rdone r /\ same_len m (rmem r) /\ 0 <= spos (rstream r) /\
    (forall q, in_range p (rdone r) q = false -> get (rmem r) q = get m q) /\
    (forall q, from_file f m (rmem r) q) /\
    (sfail s = false -> spos s + total <= blen f ->
       rstream r = mkStream (spos s + rdone r) false /\
       forall i, 0 <= i < rdone r -> get (rmem r) (padd p i) = bget f (spos s + i))).
  destruct (@loop_rule E _ P mu (fun r => 0 <? rleft r)
    (fun r =>
       let n := if blockSize <? rleft r then blockSize else rleft r in
       do ms <- sread f (rmem r) (padd p (rdone r)) n (rstream r);
       Ok (mkReading (rleft r - n) (rdone r + n) (fst ms) (snd ms)))) with
    (fuel := fuel_of (total / blockSize + 1)) (s := mkReading total 0 m s) as (r & Hr & Pr & Cr).
  - intros [lf dn mm st] (I1 & _). unfold mu, blockSize in *. cbn [rleft] in *. lia.
  - intros [lf dn mm st] (I1 & I2 & I3 & I4 & I5 & I6 & I7 & I8) C. cbn [rleft rdone rmem rstream] in *.
    apply Z.ltb_lt in C.
    set (n := if blockSize <? lf then blockSize else lf).
    assert (Hn : 0 < n <= lf /\ (lf - n + blockSize - 1) / blockSize < (lf + blockSize - 1) / blockSize).
    { unfold n. destruct (Z.ltb_spec blockSize lf); unfold blockSize in *; lia. }
    destruct Hn as (N1 & N3). clearbody n.
    unfold sread. destruct st as [pos fl]. cbn [spos sfail] in *. destruct fl.
    + cbn [bind fst snd]. eexists. split; [reflexivity|]. split; [|unfold mu; cbn [rleft]; lia].
      unfold P. cbn [rleft rdone rmem rstream spos]. split; [lia|]. split; [lia|]. split; [lia|].
      split; [assumption|]. split; [assumption|]. split; [|split; [assumption|]].
      * intros q Hq. apply I6. eapply in_range_sub; [|exact Hq]. lia.
      * intros A B. destruct (I8 A B) as [X _]. discriminate X.
    + set (k := Z.min n (blen f - pos)).
      destruct (@blit_ok E mm (padd p dn) k (fun i => bget f (pos + i))) as (m1 & -> & L1 & G1).
      { right. unfold padd; cbn [fst snd]. destruct Hp; [lia|]. rewrite I4. lia. }
      cbn [bind fst snd]. eexists. split; [reflexivity|]. split; [|unfold mu; cbn [rleft]; lia].
      unfold P. cbn [rleft rdone rmem rstream spos].
      split; [lia|]. split; [lia|]. split; [lia|]. split; [eapply same_len_trans; eauto|].
      split; [lia|]. split; [|split].
      * intros q Hq. rewrite G1. rewrite (in_range_out (padd p dn) k q).
        -- apply I6. eapply in_range_sub; [|exact Hq]. lia.
        -- unfold padd; cbn [fst snd]. intros Eq. destruct (Z.lt_ge_cases (snd q) (snd p + dn)); auto. right.
           destruct (Z.le_gt_cases (snd p + dn + k) (snd q)); auto.
           rewrite (in_range_in p (dn + n) q Eq) in Hq; [discriminate|lia].
      * intros q. unfold from_file. rewrite G1. destruct (in_range (padd p dn) k q) eqn:Eq; [|apply I7].
        apply in_range_spec in Eq. unfold padd in *; cbn [fst snd] in *. right. exists (pos + (snd q - (snd p + dn))). split; [lia|reflexivity].
      * intros A B. destruct (I8 A B) as [X Y]. injection X as ->.
        assert (Ek : k = n) by lia. split.
        -- rewrite Ek. f_equal; [lia|]. apply Z.ltb_irrefl.
        -- intros i Hi. rewrite G1. destruct (Z.lt_ge_cases i dn).
           ++ rewrite in_range_out by (unfold padd; cbn [fst snd]; lia). apply Y. lia.
           ++ rewrite in_range_in; unfold padd; cbn [fst snd]; auto; try lia. f_equal. lia.
  - unfold P. cbn [rleft rdone rmem rstream]. split; [lia|]. split; [lia|]. split; [lia|].
    split; [apply same_len_refl|]. split; [assumption|]. split; [auto|]. split; [left; reflexivity|].
    intros A B. destruct s as [pos fl]. cbn [spos sfail] in *. subst. split; [f_equal; lia|]. lia.
  - unfold mu, fuel_of, blockSize. cbn [rleft]. lia.
  - destruct r as [lf dn mm st]. destruct Pr as (I1 & I2 & I3 & I4 & I5 & I6 & I7 & I8).
    cbn [rleft rdone rmem rstream] in *. apply Z.ltb_ge in Cr.
    assert (lf = 0) by lia. assert (D : dn = total) by lia. clear I2. rewrite D in I6, I8.
    exists mm, st. rewrite Hr. cbn [bind rmem rstream].
    split; [reflexivity|]. repeat (split; [assumption|]). exact I8.
Qed.

(** ** Turning the rows upside down *)

Lemma row_split rs r r' i i' : 0 <= i < rs -> 0 <= i' < rs -> r * rs + i = r' * rs + i' -> r = r' /\ i = i'.
Proof. intros. assert (r = r') by nia. subst. lia. Qed.

Lemma row_inside rs h r i : 0 <= r < h -> 0 <= i < rs -> 0 <= r * rs + i < h * rs.
Proof. intros. nia. Qed.

Lemma flipData_ok m im nb : idata im = Some (nb, 0) -> 0 < ih im -> 0 < irs im ->
  ih im * irs im < W32 -> ih im * irs im <= len m nb ->
  exists m', flipData m im = Ok m' /\ same_len m m' /\
    (forall r i, 0 <= r < ih im -> 0 <= i < irs im ->
       get m' (nb, r * irs im + i) = get m (nb, (ih im - 1 - r) * irs im + i)) /\
    (forall q, (forall r i, 0 <= r < ih im -> 0 <= i < irs im -> q <> (nb, r * irs im + i)) -> get m' q = get m q).
Proof.
  intros Hd Hh Hrs Hs Hb. unfold flipData. rewrite Hd.
  set (h := ih im) in *. set (rs := irs im) in *. clearbody h rs.
  destruct (Z.ltb_spec h 2).
  { exists m. split; [reflexivity|]. split; [apply same_len_refl|]. split; [|auto].
    intros r i Hr Hi. replace (h - 1 - r) with r by lia. reflexivity. }
  rewrite (u32_small (h - 1)) by nia. rewrite (u32_small (rs * (h - 1))) by nia.
  set (P := fun k (s : mem * ptr * ptr) => let '(mm, st, en) := s in
    st = (nb, k * rs) /\ en = (nb, (h - 1 - k) * rs) /\ same_len m mm /\
    (forall r i, 0 <= r < h -> 0 <= i < rs ->
       get mm (nb, r * rs + i) = if (r <? k) || (h - 1 - k <? r) then get m (nb, (h - 1 - r) * rs + i) else get m (nb, r * rs + i)) /\
    (forall q, (forall r i, 0 <= r < h -> 0 <= i < rs -> q <> (nb, r * rs + i)) -> get mm q = get m q)).
  match goal with |- context [iterM ?n 0 ?g ?s] => destruct (iterM_inv P g n 0 s) as ([[mm st] en] & -> & Q) end.
  - unfold P, padd; cbn [fst snd]. split; [f_equal; lia|]. split; [f_equal; lia|]. split; [apply same_len_refl|].
    split; [|auto]. intros r i Hr Hi. destruct (Z.ltb_spec r 0), (Z.ltb_spec (h - 1 - 0) r); cbn [orb]; try lia; reflexivity.
  - intros k [[mm st] en] Hk (-> & -> & L & G & F). rewrite Z2Nat.id in Hk by (apply Z.div_pos; lia).
    assert (Hk2 : 0 <= k /\ 2 * k + 1 < h) by lia. clear Hk.
    assert (Lb : len mm nb = len m nb) by (apply L).
    rewrite (proj2 (range_ok_true mm (nb, k * rs) rs)) by (cbn [fst snd]; right; nia).
    destruct (@copy_range_ok mem mm (nb, k * rs) (nb, (h - 1 - k) * rs) rs) as (m1 & -> & L1 & G1); cbn [fst snd]; try nia.
    cbn [bind].
    destruct (@blit_ok mem m1 (nb, (h - 1 - k) * rs) rs (fun i => get mm (padd (nb, k * rs) i))) as (m2 & -> & L2 & G2).
    { cbn [fst snd]. right. rewrite L1. nia. }
    cbn [bind]. eexists. split; [reflexivity|]. unfold P, padd; cbn [fst snd].
    split; [f_equal; lia|]. split; [f_equal; lia|].
    split; [intros b; rewrite L2, L1; apply L|]. split.
    + intros r i Hr Hi. rewrite G2. cbn [fst snd].
      destruct (Z.eq_dec r (h - 1 - k)) as [->|Nr].
      * rewrite in_range_in by (cbn [fst snd]; lia). unfold padd; cbn [fst snd].
        replace (k * rs + ((h - 1 - k) * rs + i - (h - 1 - k) * rs)) with (k * rs + i) by lia.
        rewrite G by lia.
        destruct (Z.ltb_spec k k), (Z.ltb_spec (h - 1 - k) k), (Z.ltb_spec (h - 1 - k) (k + 1)), (Z.ltb_spec (h - 1 - (k + 1)) (h - 1 - k));
          cbn [orb]; try lia; f_equal; f_equal; lia.
      * rewrite in_range_out.
        2:{ cbn [fst snd]. intros _. destruct (Z.lt_ge_cases r (h - 1 - k)); [left|right]; nia. }
        rewrite G1. destruct (Z.eq_dec r k) as [->|Nk].
        -- rewrite in_range_in by (cbn [fst snd]; lia). unfold padd; cbn [fst snd].
           replace ((h - 1 - k) * rs + (k * rs + i - k * rs)) with ((h - 1 - k) * rs + i) by lia.
           rewrite G by lia.
           destruct (Z.ltb_spec (h - 1 - k) k), (Z.ltb_spec (h - 1 - k) (h - 1 - k)), (Z.ltb_spec k (k + 1));
             cbn [orb]; try lia; reflexivity.
        -- rewrite in_range_out.
           2:{ cbn [fst snd]. intros _. destruct (Z.lt_ge_cases r k); [left|right]; nia. }
           rewrite G by lia.
           destruct (Z.ltb_spec r k), (Z.ltb_spec (h - 1 - k) r), (Z.ltb_spec r (k + 1)), (Z.ltb_spec (h - 1 - (k + 1)) r);
             cbn [orb]; try lia; reflexivity.
    + intros q Hq. rewrite G2, in_range_out, G1, in_range_out; [apply F; exact Hq| |].
      * intros E. destruct (Z.lt_ge_cases (snd q) (snd (nb, k * rs))); auto. right.
        destruct (Z.le_gt_cases (snd (nb, k * rs) + rs) (snd q)); auto. exfalso.
        apply (Hq k (snd q - k * rs)); cbn [fst snd] in *; try lia. destruct q; cbn [fst snd] in *. f_equal; lia.
      * intros E. destruct (Z.lt_ge_cases (snd q) (snd (nb, (h - 1 - k) * rs))); auto. right.
        destruct (Z.le_gt_cases (snd (nb, (h - 1 - k) * rs) + rs) (snd q)); auto. exfalso.
        apply (Hq (h - 1 - k) (snd q - (h - 1 - k) * rs)); cbn [fst snd] in *; try lia. destruct q; cbn [fst snd] in *. f_equal; lia.
  - rewrite Z2Nat.id in Q by (apply Z.div_pos; lia). destruct Q as (_ & _ & L & G & F). cbn [bind fst].
    exists mm. split; [reflexivity|]. split; [exact L|]. split; [|exact F].
    intros r i Hr Hi. rewrite G by lia.
    destruct (Z.ltb_spec r (0 + h / 2)), (Z.ltb_spec (h - 1 - (0 + h / 2)) r); cbn [orb]; auto.
    f_equal. f_equal. nia.
Qed.

(** ** Expanding palette indices to colours *)

Definition pal (pm : mem) (v k : Z) : Z := get pm (0, v * 4 + k).

Lemma expand_row_ok pm m nb iy oy w :
  len pm 0 = 1024 -> 0 < w -> 0 <= iy <= oy -> oy + 3 * w <= len m nb -> oy + 3 * w < W32 ->
  (forall c, 0 <= c < w -> 0 <= get m (nb, iy + c) < 256) ->
  exists m', expand_row pm m (nb, iy) (nb, oy) w = Ok m' /\ same_len m m' /\
    (forall c k, 0 <= c < w -> 0 <= k < 3 -> get m' (nb, oy + (3 * c + k)) = pal pm (get m (nb, iy + c)) k) /\
    (forall q, in_range (nb, oy) (3 * w) q = false -> get m' q = get m q).
Proof.
  intros Hp Hw Hio Hb Hs Hv. unfold expand_row.
  rewrite (u32_small (w - 1)) by lia. rewrite (u32_small (3 * (w - 1))) by lia.
  set (P := fun s => exists j, 0 <= j <= w /\ xdone s = (j =? w) /\
    xin s = (nb, iy + (w - 1 - j)) /\ xout s = (nb, oy + 3 * (w - 1 - j)) /\ same_len m (xmem s) /\
    (forall c k, w - j <= c < w -> 0 <= k < 3 -> get (xmem s) (nb, oy + (3 * c + k)) = pal pm (get m (nb, iy + c)) k) /\
    (forall q, in_range (nb, oy + 3 * (w - j)) (3 * j) q = false -> get (xmem s) q = get m q)).
  set (mu := fun s => snd (xin s) - iy + 1).
  match goal with |- context [loop ?fu ?c ?b ?s0] => destruct (loop_rule P mu c b) with (fuel := fu) (s := s0) as (s' & -> & Q & C) end.
  - intros s (j & Hj & _ & Hi & _). unfold mu. rewrite Hi. cbn [snd]. lia.
  - intros [xi xo mm dn] (j & Hj & D & Hi & Ho & L & G & F) C. cbn [xin xout xmem xdone] in *. subst xi xo.
    assert (Hj2 : j < w). { destruct (Z.eqb_spec j w) as [E|]; [subst dn; discriminate C|lia]. }
    assert (Lb : len mm nb = len m nb) by apply L.
    assert (Hg : get mm (nb, iy + (w - 1 - j)) = get m (nb, iy + (w - 1 - j))).
    { apply F. apply in_range_out. cbn [fst snd]. lia. }
    pose proof (Hv (w - 1 - j) ltac:(lia)) as V.
    rewrite load_ok by (apply inb_iff; cbn [fst snd]; lia). cbn [bind]. rewrite Hg.
    set (v := get m (nb, iy + (w - 1 - j))) in *.
    rewrite load_ok by (apply inb_iff; cbn [fst snd]; lia). cbn [bind].
    rewrite store_ok by (apply inb_iff; cbn [fst snd]; lia). cbn [bind].
    rewrite load_ok by (apply inb_iff; cbn [fst snd]; lia). cbn [bind].
    rewrite store_ok by (apply inb_iff; unfold padd; rewrite len_upd; cbn [fst snd]; lia). cbn [bind].
    rewrite load_ok by (apply inb_iff; cbn [fst snd]; lia). cbn [bind].
    rewrite store_ok by (apply inb_iff; unfold padd; rewrite !len_upd; cbn [fst snd]; lia). cbn [bind].
    eexists. split; [reflexivity|]. split; [|unfold mu, padd; cbn [xin snd]; lia].
    exists (j + 1). cbn [xin xout xmem xdone]. unfold padd; cbn [fst snd].
    split; [lia|]. split.
    { unfold ptr_eqb. cbn [fst snd]. rewrite Z.eqb_refl. cbn [andb].
      destruct (Z.eqb_spec (iy + (w - 1 - j)) iy), (Z.eqb_spec (j + 1) w); auto; lia. }
    split; [f_equal; lia|]. split; [f_equal; lia|]. split.
    { intros b. rewrite !len_upd. apply L. }
    split.
    + intros c k Hc Hk. rewrite !get_upd. unfold ptr_eqb; cbn [fst snd]. rewrite Z.eqb_refl; cbn [andb].
      destruct (Z.eq_dec c (w - 1 - j)) as [->|Nc].
      * unfold pal. fold v.
        destruct (Z.eqb_spec (oy + (3 * (w - 1 - j) + k)) (oy + 3 * (w - 1 - j) + 2));
          [f_equal; f_equal; lia|].
        destruct (Z.eqb_spec (oy + (3 * (w - 1 - j) + k)) (oy + 3 * (w - 1 - j) + 1));
          [f_equal; f_equal; lia|].
        destruct (Z.eqb_spec (oy + (3 * (w - 1 - j) + k)) (oy + 3 * (w - 1 - j)));
          [f_equal; f_equal; lia|lia].
      * destruct (Z.eqb_spec (oy + (3 * c + k)) (oy + 3 * (w - 1 - j) + 2)); [lia|].
        destruct (Z.eqb_spec (oy + (3 * c + k)) (oy + 3 * (w - 1 - j) + 1)); [lia|].
        destruct (Z.eqb_spec (oy + (3 * c + k)) (oy + 3 * (w - 1 - j))); [lia|].
        apply G; lia.
    + intros q Hq.
      assert (Nq : fst q = nb -> ~ (oy + 3 * (w - (j + 1)) <= snd q < oy + 3 * w)).
      { intros E1 E2. rewrite in_range_in in Hq; [discriminate|exact E1|cbn [snd]; lia]. }
      rewrite !get_upd_other.
      * apply F. apply in_range_out. cbn [fst snd]. intros E1. specialize (Nq E1). lia.
      * intros ->. cbn [fst snd] in Nq. apply (Nq eq_refl). lia.
      * intros ->. cbn [fst snd] in Nq. apply (Nq eq_refl). lia.
      * intros ->. cbn [fst snd] in Nq. apply (Nq eq_refl). lia.
  - exists 0. cbn [xin xout xmem xdone]. unfold padd; cbn [fst snd]. split; [lia|]. split.
    { destruct (Z.eqb_spec 0 w); auto; lia. }
    split; [f_equal; lia|]. split; [f_equal; lia|]. split; [apply same_len_refl|]. split; [lia|auto].
  - unfold mu, padd, fuel_of. cbn [xin snd]. lia.
  - destruct Q as (j & Hj & D & _ & _ & L & G & F). rewrite D in C. apply Bool.negb_false_iff, Z.eqb_eq in C. subst j.
    cbn [bind]. exists (xmem s'). split; [reflexivity|]. split; [exact L|]. split.
    + intros c k Hc Hk. apply G; lia.
    + intros q Hq. apply F. replace (oy + 3 * (w - w)) with oy by lia. exact Hq.
Qed.

Lemma expand_ok pm m nb rs R w h :
  len pm 0 = 1024 -> 0 < w -> 0 < h -> w <= rs <= R -> 3 * w <= R -> h * R <= len m nb -> h * R < W32 ->
  (forall r c, 0 <= r < h -> 0 <= c < w -> 0 <= get m (nb, r * rs + c) < 256) ->
  exists m', expand pm m (nb, 0) rs R w h = Ok m' /\ same_len m m' /\
    (forall r c k, 1 <= r < h -> 0 <= c < w -> 0 <= k < 3 ->
       get m' (nb, r * R + (3 * c + k)) = pal pm (get m (nb, r * rs + c)) k) /\
    (forall q, (fst q = nb -> snd q < R \/ h * R <= snd q) -> get m' q = get m q).
Proof.
  intros Hp Hw Hh Hr HR Hb Hs Hv. unfold expand.
  rewrite (u32_small (h - 1)) by nia. rewrite (u32_small (rs * (h - 1))) by nia. rewrite (u32_small (R * (h - 1))) by nia.
  rewrite (walk_iterM (h - 1)); [|lia|lia|unfold padd; cbn [fst snd]; f_equal; lia|reflexivity].
  set (P := fun j mm => same_len m mm /\
    (forall r c k, h - j <= r < h -> 0 <= c < w -> 0 <= k < 3 -> get mm (nb, r * R + (3 * c + k)) = pal pm (get m (nb, r * rs + c)) k) /\
    (forall q, (fst q = nb -> snd q < (h - j) * R \/ h * R <= snd q) -> get mm q = get m q)).
  match goal with |- context [iterM ?n 0 ?g ?s] => destruct (iterM_inv P g n 0 s) as (mm & -> & Q) end.
  - split; [apply same_len_refl|]. split; [lia|auto].
  - intros j mm Hj (L & G & F). rewrite Z2Nat.id in Hj by lia.
    unfold c0, c1, at_, padd; cbn [combine map nth fst snd].
    replace (0 + rs * (h - 1) + j * - rs) with ((h - 1 - j) * rs) by lia.
    replace (0 + R * (h - 1) + j * - R) with ((h - 1 - j) * R) by lia.
    assert (Lb : len mm nb = len m nb) by apply L.
    assert (Un : forall r c, 0 <= r <= h - 1 - j -> 0 <= c < w -> get mm (nb, r * rs + c) = get m (nb, r * rs + c)).
    { intros r c Hr' Hc. apply F. cbn [fst snd]. intros _. left.
      apply Z.lt_le_trans with ((r + 1) * rs); [lia|]. apply Z.le_trans with ((r + 1) * R); nia. }
    destruct (expand_row_ok pm mm nb ((h - 1 - j) * rs) ((h - 1 - j) * R) w) as (m1 & E1 & L1 & G1 & F1); auto; try nia.
    { intros c Hc. rewrite Un by lia. apply Hv; lia. }
    exists m1. split; [exact E1|]. split; [eapply same_len_trans; eauto|]. split.
    + intros r c k Hr' Hc Hk. destruct (Z.eq_dec r (h - 1 - j)) as [->|Nr].
      * rewrite G1 by lia. rewrite Un by lia. reflexivity.
      * rewrite F1; [apply G; lia|]. apply in_range_out. cbn [fst snd]. intros _. right. nia.
    + intros q Hq. rewrite F1.
      * apply F. intros Eq. specialize (Hq Eq). destruct Hq; [left; nia|right; lia].
      * apply in_range_out. cbn [fst snd]. intros Eq. specialize (Hq Eq). destruct Hq; [left; lia|right; nia].
  - rewrite Z2Nat.id in Q by lia. destruct Q as (L & G & F). exists mm. split; [reflexivity|]. split; [exact L|]. split.
    + intros r c k Hr' Hc Hk. apply G; lia.
    + intros q Hq. apply F. intros Eq. specialize (Hq Eq). replace (h - (0 + (h - 1))) with 1 by lia. lia.
Qed.

(** ** Load after the headers *)

Definition gray_byte (k : Z) : Z := if k mod 4 =? 3 then 0 else k / 4.

Lemma gray_length : length gray_palette = 1024%nat.
Proof. vm_compute. reflexivity. Qed.

Lemma gray_nth k : 0 <= k < 1024 -> nth (Z.to_nat k) gray_palette 0 = gray_byte k.
Proof.
  intros Hk.
  assert (A : forallb (fun i => nth i gray_palette 0 =? gray_byte (Z.of_nat i)) (seq 0 1024) = true) by (vm_compute; reflexivity).
  rewrite forallb_forall in A. specialize (A (Z.to_nat k)). rewrite Z2Nat.id in A by lia.
  apply Z.eqb_eq, A, in_seq. lia.
Qed.

(** The palette between the headers and the samples is the gray one. *)
Definition gray_at (f : file) (o : Z) : Prop := forall k, 0 <= k < 1024 -> bget f (o + k) = gray_byte k.

Lemma rows4 w cc : 0 < w -> 1 <= cc <= 4 -> w * cc <= roundup (w * cc) 4 <= 4 * w.
Proof. intros. unfold roundup. assert (cc = 1 \/ cc = 2 \/ cc = 3 \/ cc = 4) as [-> | [-> | [-> | ->]]] by lia; lia. Qed.

Definition row4 (w cc : Z) : Z := roundup (w * cc) 4.

Lemma row_size4 w h cc : 0 < w -> 0 < h -> 1 <= cc <= 4 -> h * row4 w cc < W32 ->
  row_size w cc BITMAP_ALIGNMENT = row4 w cc /\ w * cc <= row4 w cc <= 4 * w.
Proof.
  intros Hw Hh Hc Hs. pose proof (rows4 w cc Hw Hc) as R. unfold row4 in *.
  rewrite row_size_ok; unfold BITMAP_ALIGNMENT; try lia; try nia.
Qed.

Definition is_bytes (g : Z -> Z) (n : Z) : Prop := forall o, 0 <= o < n -> 0 <= g o < 256.

(** Row of the file that holds row [y] of the image. *)
Definition stored_row (d : dib) (y : Z) : Z := if dflipped d then dheight d - 1 - y else y.

Record loaded (f : file) (m : mem) (nb off : Z) (d : dib) (m' : mem) (im : image) : Prop := mkLoaded {
  ld_len : blen f = off + dheight d * row4 (dwidth d) (dcc d);
  ld_w : iw im = dwidth d;
  ld_h : ih im = dheight d;
  ld_data : idata im = Some (nb, 0);
  ld_rs : irs im = row4 (dwidth d) (icc im);
  ld_block : len m' nb = dheight d * irs im;
  ld_other : forall b, b <> nb -> len m' b = len m b /\ forall o, get m' (b, o) = get m (b, o);
  ld_case :
    icc im = dcc d /\
      (dcc d = 1 -> off - dsize d - 14 = 1024 -> gray_at f (14 + dsize d)) /\
      (forall y i, 0 <= y < dheight d -> 0 <= i < irs im ->
         get m' (nb, y * irs im + i) = bget f (off + stored_row d y * irs im + i))
    \/ icc im = 3 /\ dcc d = 1 /\ off - dsize d - 14 = 1024 /\ ~ gray_at f (14 + dsize d) /\
      (forall y c k, 0 <= y < dheight d -> 0 <= c < dwidth d -> 0 <= k < 3 -> 1 <= stored_row d y ->
         get m' (nb, y * irs im + (3 * c + k))
         = bget f (14 + dsize d + bget f (off + stored_row d y * row4 (dwidth d) 1 + c) * 4 + k)) /\
      (forall y i, 0 <= y < dheight d -> 0 <= i < dwidth d -> stored_row d y = 0 ->
         get m' (nb, y * irs im + i) = bget f (off + i))
}.

Lemma seq_in_range n k : In k (seq 0 n) -> (k < n)%nat.
Proof. intros H. apply in_seq in H. lia. Qed.

Lemma load_data_ok f m nb junk off d :
  is_bytes (bget f) (blen f) -> (forall o, 0 <= junk o < 256) ->
  0 < dwidth d -> 0 < dheight d -> dcc d = 1 \/ dcc d = 3 \/ dcc d = 4 ->
  dheight d * row4 (dwidth d) (dcc d) < W32 ->
  (dcc d = 1 -> off - dsize d - 14 = 1024 -> ~ gray_at f (14 + dsize d) -> dheight d * row4 (dwidth d) 3 < W32) ->
  0 <= dsize d -> dsize d + 14 <= off -> off < W32 -> off < blen f ->
  (blen f <> off + dheight d * row4 (dwidth d) (dcc d) \/ W32 <= blen f) /\ load_data f m nb junk off d = Ok (m, no_image) \/
  exists m' im, load_data f m nb junk off d = Ok (m', im) /\ loaded f m nb off d m' im.
Proof.
  intros Hf Hj Hw Hh Hcc R3 Hs3 Hd Ho Ho' Hlen. unfold load_data.
  destruct d as [w h cc ds fl inv]. unfold stored_row in *. cbn [dwidth dheight dcc dsize dflipped dinvalid] in *.
  destruct (row_size4 w h cc) as (E1 & R1 & R2); auto; [lia|]. rewrite E1.
  assert (Rpos : 0 < row4 w cc) by nia.
  rewrite (u32_small (row4 w cc * h)) by nia.
  destruct (Z.eqb_spec (blen f) (u32 (off + row4 w cc * h))) as [EL|NL]; cbn [negb].
  2:{ left. split; [|reflexivity]. destruct (Z.le_gt_cases W32 (blen f)); auto. left. intros E. apply NL. rewrite E.
      symmetry. rewrite u32_small; lia. }
  right.
  assert (EL' : blen f = off + h * row4 w cc).
  { rewrite EL. unfold u32 in *. rewrite W32_val in *. lia. }
  clear EL.
  rewrite (u32_small (off - ds - 14)) by lia.
  set (ps := off - ds - 14) in *.
  set (pm0 := fun _ : Z => mkBlock ps (fun _ => 0)).
  destruct (@read_blocks_ok mem f pm0 (0, 0) ps (mkStream (14 + ds) false)) as (pm & s & -> & Lp & Sp & _ & _ & Gp);
    cbn [spos sfail fst snd]; try lia.
  { unfold pm0, len; cbn [blen]. lia. }
  cbn [spos sfail] in Gp. destruct (Gp eq_refl ltac:(lia)) as [-> Gp']. clear Gp Sp. rename Gp' into Gp.
  cbn [bind].
  set (conv := (0 <? ps) && (ps =? 1024) && (cc =? 1) && negb (forallb (fun k => get pm (0, Z.of_nat k) =? nth k gray_palette 0) (seq 0 1024))).
  set (cc' := if conv then 3 else cc).
  assert (Hc' : 1 <= cc' <= 4) by (unfold cc'; destruct conv; lia).
  assert (Hcc3 : cc' = 1 \/ cc' = 3 \/ cc' = 4) by (unfold cc'; destruct conv; lia).
  assert (Hcle : cc <= cc').
  { unfold cc'. destruct conv eqn:C; [|lia]. unfold conv in C. rewrite !Bool.andb_true_iff, !Z.eqb_eq in C. lia. }
  assert (Gray : conv = false -> cc = 1 -> ps = 1024 -> gray_at f (14 + ds)).
  { intros C A B. unfold conv in C. rewrite A, B in C. cbn [Z.eqb Z.ltb Z.compare andb Pos.eqb Pos.compare Pos.compare_cont] in C.
    apply Bool.negb_false_iff in C. rewrite forallb_forall in C. intros k Hk.
    specialize (C (Z.to_nat k) ltac:(apply in_seq; lia)). apply Z.eqb_eq in C. rewrite Z2Nat.id in C by lia.
    rewrite gray_nth in C by lia. rewrite <- C. specialize (Gp k ltac:(lia)). unfold padd in Gp; cbn [fst snd] in Gp.
    rewrite <- Gp. reflexivity. }
  assert (NGray : conv = true -> cc = 1 /\ ps = 1024 /\ ~ gray_at f (14 + ds)).
  { intros C. unfold conv in C. rewrite !Bool.andb_true_iff, !Z.eqb_eq in C. destruct C as [[[_ A] B] C].
    split; [exact B|]. split; [exact A|]. intros G. apply Bool.negb_true_iff in C.
    assert (D : forallb (fun k => get pm (0, Z.of_nat k) =? nth k gray_palette 0) (seq 0 1024) = true); [|congruence].
    apply forallb_forall. intros k Hk. apply seq_in_range in Hk. apply Z.eqb_eq.
    rewrite <- (Nat2Z.id k) at 2. rewrite gray_nth by lia. rewrite <- (G (Z.of_nat k)) by lia.
    specialize (Gp (Z.of_nat k) ltac:(lia)). unfold padd in Gp; cbn [fst snd] in Gp. exact Gp. }
  assert (Q3 : h * row4 w cc' < W32).
  { unfold cc'. destruct conv; [|exact R3]. destruct (NGray eq_refl) as (A & B & C). apply Hs3; assumption. }
  destruct (row_size4 w h cc') as (E2 & Q1 & Q2); auto.
  assert (RR : row4 w cc <= row4 w cc').
  { unfold row4, roundup. assert (w * cc <= w * cc') by nia. lia. }
  unfold new_image. rewrite E2.
  set (m0 := fun b => if b =? nb then mkBlock (h * row4 w cc') junk else m b).
  assert (L0 : len m0 nb = h * row4 w cc') by (unfold m0, len; rewrite Z.eqb_refl; reflexivity).
  cbn [irs].
  replace (14 + ds + ps) with off by lia.
  destruct (@read_blocks_ok mem f m0 (nb, 0) (row4 w cc * h) (mkStream off false)) as (m1 & s1 & -> & L1 & _ & F1 & Ff1 & G1);
    cbn [spos sfail fst snd]; try lia; try nia.
  cbn [spos sfail] in G1. destruct (G1 eq_refl ltac:(lia)) as [-> G1']. clear G1.
  assert (G1 : forall r i, 0 <= r < h -> 0 <= i < row4 w cc -> get m1 (nb, r * row4 w cc + i) = bget f (off + (r * row4 w cc + i))).
  { intros r i Hr Hi. rewrite <- G1' by nia. f_equal. }
  clear G1'. cbn [bind fst].
  assert (V1 : forall o, 0 <= get m1 (nb, o) < 256).
  { intros o. destruct (Ff1 (nb, o)) as [-> | (o' & Ho1 & ->)]; [|apply Hf; exact Ho1].
    unfold get, m0; cbn [fst snd]. rewrite Z.eqb_refl. apply Hj. }
  set (im := mkImage w h cc' BITMAP_ALIGNMENT (row4 w cc') (Some (nb, 0)) 0).
  assert (X : exists m2, (if conv then expand pm m1 (nb, 0) (row4 w cc) (row4 w cc') w h else Ok m1) = Ok m2 /\ same_len m1 m2 /\
     (forall b, b <> nb -> forall o, get m2 (b, o) = get m1 (b, o)) /\
     (conv = false -> m2 = m1) /\
     (conv = true -> (forall r c k, 1 <= r < h -> 0 <= c < w -> 0 <= k < 3 ->
         get m2 (nb, r * row4 w cc' + (3 * c + k)) = pal pm (get m1 (nb, r * row4 w cc + c)) k) /\
         forall o, o < row4 w cc' -> get m2 (nb, o) = get m1 (nb, o))).
  { destruct conv eqn:C.
    - assert (cc = 1 /\ ps = 1024) as [-> Eps].
      { unfold conv in C. rewrite !Bool.andb_true_iff, !Z.eqb_eq in C. tauto. }
      destruct (expand_ok pm m1 nb (row4 w 1) (row4 w cc') w h) as (m2 & E3 & L2 & G2 & F2); auto; try lia.
      { rewrite Lp. unfold pm0, len; cbn [blen]. exact Eps. }
      { rewrite L1, L0. lia. }
      exists m2. split; [exact E3|]. split; [exact L2|]. split; [|split; [discriminate|]].
      + intros b Hb o. apply F2. cbn [fst]. intros. contradiction.
      + intros _. split; [exact G2|]. intros o Ho2. apply F2. cbn [snd]. auto.
    - exists m1. split; [reflexivity|]. split; [apply same_len_refl|]. split; [auto|]. split; [auto|discriminate]. }
  destruct X as (m2 & -> & L2 & B2 & N2 & C2). cbn [bind].
  assert (Y : exists m3, (if fl then flipData m2 im else Ok m2) = Ok m3 /\ same_len m2 m3 /\
     (forall b, b <> nb -> forall o, get m3 (b, o) = get m2 (b, o)) /\
     forall y i, 0 <= y < h -> 0 <= i < row4 w cc' ->
       get m3 (nb, y * row4 w cc' + i) = get m2 (nb, (if fl then h - 1 - y else y) * row4 w cc' + i)).
  { destruct fl.
    - destruct (flipData_ok m2 im nb) as (m3 & E3 & L3 & G3 & F3); unfold im; cbn [idata ih irs]; auto; try lia.
      { rewrite L2, L1, L0. lia. }
      exists m3. split; [exact E3|]. split; [exact L3|]. split; [|exact G3].
      intros b Hb o. apply F3. intros r i _ _ E. congruence.
    - exists m2. split; [reflexivity|]. split; [apply same_len_refl|]. auto. }
  destruct Y as (m3 & -> & L3 & B3 & G3). cbn [bind].
  exists m3, im. split; [reflexivity|].
  constructor; unfold im, stored_row; cbn [iw ih icc ial irs idata dwidth dheight dcc dsize dflipped]; auto.
  - rewrite L3, L2, L1, L0. reflexivity.
  - intros b Hb. split.
    + rewrite L3, L2, L1. unfold len, m0. rewrite (proj2 (Z.eqb_neq b nb) Hb). reflexivity.
    + intros o. rewrite B3, B2 by assumption. rewrite F1 by (apply in_range_out; cbn [fst]; intros; contradiction).
      unfold get, m0; cbn [fst snd]. rewrite (proj2 (Z.eqb_neq b nb) Hb). reflexivity.
  - destruct conv eqn:C.
    + right. destruct (NGray eq_refl) as (-> & Eps & NG). destruct (C2 eq_refl) as [G2 F2].
      split; [reflexivity|]. split; [reflexivity|]. split; [exact Eps|]. split; [exact NG|].
      assert (cc' = 3) by reflexivity. split.
      * intros y c k Hy Hc Hk Hr. rewrite G3 by lia. rewrite G2 by (destruct fl; lia).
        rewrite G1 by (destruct fl; lia). unfold pal.
        set (v := bget f (off + ((if fl then h - 1 - y else y) * row4 w 1 + c))).
        assert (Hv : 0 <= v < 256). { unfold v. rewrite <- G1 by (destruct fl; lia). apply V1. }
        pose proof (Gp (v * 4 + k) ltac:(lia)) as E. unfold padd in E; cbn [fst snd] in E.
        rewrite (Z.add_0_l (v * 4 + k)) in E. rewrite E. unfold v. f_equal.
        rewrite (Z.add_assoc off). lia.
      * intros y i Hy Hi Hr. rewrite G3 by lia. rewrite Hr. rewrite F2 by lia. replace (0 * row4 w cc' + i) with (0 * row4 w 1 + i) by lia.
        rewrite G1 by lia. f_equal.
    + left. split; [reflexivity|]. split; [auto|].
      intros y i Hy Hi. rewrite G3 by lia. rewrite (N2 eq_refl). unfold cc' in *. rewrite G1 by (destruct fl; lia). f_equal. lia.
Qed.
