(** Proofs about Morph.v. *)
From Coq Require Import ZArith List Bool Lia.
From Verif Require Import Base Image Spec BaseProofs ImgFun ImgLemmas Morph.
Import ListNotations.
Open Scope Z_scope.
Ltac Zify.zify_post_hook ::= Z.div_mod_to_equations.

Section Line.
Variables (m : mem) (start : ptr) (stride n d value : Z).
Hypothesis Hstride : 0 < stride.
Hypothesis Hn : 1 <= n.
Hypothesis Hn31 : n < 2147483648.
Hypothesis Hsize : n * stride < W32.
Hypothesis Hd : 0 < d <= n.

Definition cell (k : Z) : ptr := padd start (k * stride).
Hypothesis Hin : forall k, 0 <= k < n -> inb m (cell k) = true.
Definition lv (k : Z) : Z := get m (cell k).
Hypothesis Hbin : forall k, 0 <= k < n -> lv k = 0 \/ lv k = 255.

Definition turn (t : Z) : Prop := 1 <= t < n /\ lv (t - 1) <> lv t.
Definition covered (l : list (Z * Z)) (k : Z) : Prop := exists ab, In ab l /\ fst ab <= k < snd ab.
Definition pcell (ab : Z * Z) : ptr * ptr := (cell (fst ab), cell (snd ab)).
Definition pend : ptr := padd start (u32 (n * stride)).

Lemma pend_cell : pend = cell n.
Proof. unfold pend, cell. rewrite u32_small by (pose proof W32_val; nia). reflexivity. Qed.

Lemma cell_eqb a b : ptr_eqb (cell a) (cell b) = (a =? b).
Proof.
  unfold cell. rewrite ptr_eqb_padd. destruct (Z.eqb_spec a b) as [->|H].
  - apply Z.eqb_refl.
  - apply Z.eqb_neq. nia.
Qed.

Lemma cell_next a b : padd (cell a) (b * stride) = cell (a + b).
Proof. unfold cell. rewrite padd_padd. f_equal. nia. Qed.

Lemma binary_flip k : 0 <= k < n -> lv k <> lv (k - 1) -> 1 <= k -> lv k = Z.lxor 255 (lv (k - 1)).
Proof.
  intros Hk Hne H1. destruct (Hbin k Hk) as [H|H], (Hbin (k - 1) ltac:(lia)) as [G|G]; rewrite ?H, ?G in *;
    try (now elim Hne); reflexivity.
Qed.

Lemma scan_step_at pos pairs :
  1 <= pos < n -> Z.of_nat (length pairs) < pos ->
  scan_step m start pend stride n d (mkScan (cell pos) (lv (pos - 1)) pairs false)
  = Ok (if lv pos =? lv (pos - 1) then mkScan (cell (pos + 1)) (lv (pos + 1 - 1)) pairs false
        else if n - pos <? d
             then mkScan (cell pos) (lv (pos - 1)) (pairs ++ [pcell (Z.max 0 (pos - d), n)]) true
             else mkScan (cell (pos + 1)) (lv (pos + 1 - 1))
                    (pairs ++ [pcell (Z.max 0 (pos - d), pos + d)]) false).
Proof.
  intros Hp Hl. pose proof W32_val as HW. unfold scan_step. cbn [scur sprev spairs sstop].
  rewrite load_ok by (apply Hin; lia). cbn [bind]. fold (lv pos).
  replace (pos + 1 - 1) with pos by lia.
  assert (Hnext : padd (cell pos) stride = cell (pos + 1)).
  { rewrite <- cell_next. f_equal. lia. }
  destruct (Z.eqb_spec (lv pos) (lv (pos - 1))) as [He|He].
  - rewrite He, Hnext. reflexivity.
  - replace (u32 (snd (cell pos) - snd start)) with (pos * stride)
      by (unfold cell, padd; cbn [snd]; rewrite u32_small; nia).
    rewrite Z.div_mul by lia. rewrite (u32_small (d * stride)) by nia.
    rewrite (u32_small (2 * n)) by lia.
    destruct (Z.ltb_spec (n + Z.of_nat (length pairs)) (2 * n)) as [_|Hx]; [|lia].
    assert (Ha : (if pos <? d then start else padd (cell pos) (- (d * stride)))
                 = cell (Z.max 0 (pos - d))).
    { destruct (Z.ltb_spec pos d).
      - replace (Z.max 0 (pos - d)) with 0 by lia. unfold cell. rewrite padd_0. reflexivity.
      - replace (Z.max 0 (pos - d)) with (pos + - d) by lia. rewrite <- cell_next. f_equal. lia. }
    rewrite Ha, cell_next, Hnext, pend_cell. rewrite (binary_flip pos) by lia.
    destruct (n - pos <? d); reflexivity.
Qed.

Lemma scan_loop r : forall fuel pos pairs,
  pos + Z.of_nat r = n -> 1 <= pos -> (r < fuel)%nat -> Z.of_nat (length pairs) < pos ->
  exists s extra,
    loop fuel (fun s => negb (sstop s) && negb (ptr_eqb (scur s) pend))
      (scan_step m start pend stride n d) (mkScan (cell pos) (lv (pos - 1)) pairs false) = Ok s /\
    spairs s = pairs ++ map pcell extra /\
    (forall a b, In (a, b) extra -> 0 <= a <= b /\ b <= n) /\
    (forall k, 0 <= k < n ->
       (covered extra k <-> exists t, turn t /\ pos <= t /\ t - d <= k < t + d)).
Proof.
  induction r as [|r IH]; intros fuel pos pairs Hr H1 Hf Hl; (destruct fuel as [|fuel]; [lia|]);
    cbn [loop sstop scur negb andb].
  - replace pos with n in * by lia. rewrite pend_cell, cell_eqb, Z.eqb_refl. cbn [negb].
    eexists _, []. split; [reflexivity|]. split; [cbn; now rewrite app_nil_r|]. split; [intros a b []|].
    intros k Hk. split; [intros (ab & [] & _)|]. intros (t & (Ht & _) & Hpt & _). lia.
  - replace (ptr_eqb (cell pos) pend) with (pos =? n) by (rewrite pend_cell, cell_eqb; reflexivity).
    destruct (Z.eqb_spec pos n) as [?|_]; [lia|]. cbn [negb].
    rewrite scan_step_at by lia. cbn [bind].
    destruct (Z.eqb_spec (lv pos) (lv (pos - 1))) as [He|He].
    + destruct (IH fuel (pos + 1) pairs) as (s & extra & E1 & E2 & E3 & E4); try lia.
      exists s, extra. rewrite E1. split; [reflexivity|]. split; [exact E2|]. split; [exact E3|].
      intros k Hk. rewrite (E4 k Hk). split; intros (t & Ht & Hpt & Hkt); exists t; (split; [exact Ht|]); split; auto; try lia.
      destruct (Z.eq_dec t pos) as [->|]; [|lia]. destruct Ht as (_ & Ht). now elim Ht.
    + destruct (Z.ltb_spec (n - pos) d) as [Hb|Hb].
      * destruct fuel as [|fuel]; [lia|]. cbn [loop sstop negb andb].
        eexists _, [(Z.max 0 (pos - d), n)]. split; [reflexivity|]. split; [reflexivity|]. split.
        { intros a b [H|[]]. injection H as <- <-. lia. }
        intros k Hk. split.
        -- intros (ab & [<-|[]] & Hab). cbn [fst snd] in Hab. exists pos. unfold turn.
           split; [split; [lia|auto]|]. lia.
        -- intros (t & (Ht & _) & Hpt & Hkt). exists (Z.max 0 (pos - d), n). split; [left; reflexivity|].
           cbn [fst snd]. lia.
      * destruct (IH fuel (pos + 1) (pairs ++ [pcell (Z.max 0 (pos - d), pos + d)]))
          as (s & extra & E1 & E2 & E3 & E4); try lia.
        { rewrite app_length. cbn [length]. lia. }
        exists s, ((Z.max 0 (pos - d), pos + d) :: extra). rewrite E1. split; [reflexivity|]. split.
        { rewrite E2, <- app_assoc. reflexivity. }
        split.
        { intros a b [H|H]; [injection H as <- <-; lia|auto]. }
        intros k Hk. split.
        -- intros (ab & [<-|Hab] & Hkk).
           ++ cbn [fst snd] in Hkk. exists pos. unfold turn. split; [split; [lia|auto]|]. lia.
           ++ destruct (proj1 (E4 k Hk)) as (t & Ht & Hpt & Hkt); [exists ab; auto|].
              exists t. split; [exact Ht|]. lia.
        -- intros (t & Ht & Hpt & Hkt). destruct (Z.eq_dec t pos) as [->|].
           ++ exists (Z.max 0 (pos - d), pos + d). split; [left; reflexivity|]. cbn [fst snd]. lia.
           ++ destruct (proj2 (E4 k Hk)) as (ab & Hab & Hkk).
              { exists t. split; [exact Ht|]. lia. }
              exists ab. split; [right; exact Hab|exact Hkk].
Qed.
End Line.

(** Painting a list of index ranges of one line. *)
Lemma paint_ok start stride n value (l : list (Z * Z)) : forall m,
  0 < stride -> 0 <= n ->
  (forall k, 0 <= k < n -> inb m (cell start stride k) = true) ->
  (forall a b, In (a, b) l -> 0 <= a <= b /\ b <= n) ->
  exists m', paint m (map (pcell start stride) l) stride n value = Ok m' /\ same_len m m' /\
    (forall q, (forall k, 0 <= k < n -> q <> cell start stride k) -> get m' q = get m q) /\
    (forall k, 0 <= k < n ->
       (covered l k -> get m' (cell start stride k) = value) /\
       (~ covered l k -> get m' (cell start stride k) = get m (cell start stride k))).
Proof.
  induction l as [|[a b] l IH]; intros m Hs Hn Hin Hl.
  - exists m. split; [reflexivity|]. split; [apply same_len_refl|]. split; [auto|].
    intros k Hk. split; [intros (ab & [] & _)|auto].
  - cbn [map paint pcell fst snd].
    destruct (Hl a b) as (Hab & Hb); [left; reflexivity|].
    set (C := cell start stride) in *.
    assert (Hinj : forall i j, C i = C j -> i = j).
    { intros i j H. unfold C, cell in H. apply padd_inj in H. nia. }
    assert (Hcell : forall k, padd (C a) (k * stride) = C (a + k)).
    { intros k. unfold C, cell. rewrite padd_padd. f_equal. nia. }
    rewrite (@walk_iterM mem mem (b - a)); [|lia|lia| |reflexivity].
    2:{ rewrite Hcell. f_equal. lia. }
    destruct (@iterM_inv mem mem
      (fun k t => same_len m t /\
         (forall q, (forall i, 0 <= i < n -> q <> C i) -> get t q = get m q) /\
         (forall i, 0 <= i < n -> get t (C i) = if (a <=? i) && (i <? a + k) then value else get m (C i)))
      (fun k => fun m => store m (c0 (at_ [C a] [stride] k)) value) (Z.to_nat (b - a)) 0 m)
      as (m1 & E1 & L1 & F1 & V1).
    { split; [apply same_len_refl|]. split; [auto|]. intros i Hi.
      destruct (Z.leb_spec a i), (Z.ltb_spec i (a + 0)); cbn [andb]; auto; lia. }
    { intros k t Hk (L & F & V). unfold c0, at_. cbn [combine map nth fst snd].
      rewrite Hcell. rewrite store_ok by (rewrite (same_len_inb m t) by assumption; apply Hin; lia).
      eexists. split; [reflexivity|]. split; [intros bb; rewrite len_upd; apply L|]. split.
      - intros q Hq. rewrite get_upd_other by (apply Hq; lia). auto.
      - intros i Hi. destruct (Z.eq_dec i (a + k)) as [->|Hne].
        + rewrite get_upd_same. destruct (Z.leb_spec a (a + k)), (Z.ltb_spec (a + k) (a + (k + 1))); auto; lia.
        + rewrite get_upd_other by (intros H; apply Hinj in H; lia). rewrite V by assumption.
          destruct (Z.leb_spec a i), (Z.ltb_spec i (a + k)), (Z.ltb_spec i (a + (k + 1))); auto; lia. }
    rewrite E1. cbn [bind].
    destruct (IH m1) as (m2 & E2 & L2 & F2 & V2); auto.
    { intros k Hk. rewrite (same_len_inb m m1) by assumption. auto. }
    { intros a' b' H. apply Hl. right. exact H. }
    exists m2. split; [exact E2|]. split; [eapply same_len_trans; eauto|]. split.
    + intros q Hq. rewrite F2 by assumption. apply F1. assumption.
    + intros k Hk. destruct (V2 k Hk) as (Vc & Vn). specialize (V1 k Hk).
      assert (Dec : covered l k \/ ~ covered l k).
      { clear. induction l as [|[a b] l IH]; [right; intros (ab & [] & _)|].
        destruct IH as [IH|IH].
        - left. destruct IH as (ab & H1 & H2). exists ab. split; [right; exact H1|exact H2].
        - destruct (Z_le_dec a k), (Z_lt_dec k b);
            try (left; exists (a, b); split; [left; reflexivity|cbn; lia]);
            right; intros (ab & [<-|H1] & H2); cbn in H2; try lia; apply IH; exists ab; auto. }
      split.
      * intros (ab & [<-|H1] & H2).
        -- cbn [fst snd] in H2. destruct Dec as [D|D]; [auto|]. rewrite (Vn D), V1.
           destruct (Z.leb_spec a k), (Z.ltb_spec k (a + (0 + Z.of_nat (Z.to_nat (b - a))))); auto; lia.
        -- apply Vc. exists ab. auto.
      * intros Hc. rewrite Vn.
        -- rewrite V1. destruct (Z.leb_spec a k), (Z.ltb_spec k (a + (0 + Z.of_nat (Z.to_nat (b - a))))); auto.
           elim Hc. exists (a, b). split; [left; reflexivity|cbn; lia].
        -- intros (ab & H1 & H2). apply Hc. exists ab. split; [right; exact H1|exact H2].
Qed.

(** Is some sample equal to [value] within distance [d]?  The two directions of the step from
    turns to runs. *)
Lemma turn_between (v : Z -> Z) (value : Z) : forall (r : nat) k,
  v k <> value -> v (k + Z.of_nat r) = value ->
  exists t, k < t <= k + Z.of_nat r /\ v (t - 1) <> v t.
Proof.
  induction r as [|r IH]; intros k H0 H1.
  - elim H0. rewrite <- H1. f_equal. lia.
  - destruct (Z.eq_dec (v (k + 1)) value) as [He|He].
    + exists (k + 1). split; [lia|]. replace (k + 1 - 1) with k by lia. congruence.
    + destruct (IH (k + 1) He) as (t & Ht & Hv).
      { rewrite <- H1. f_equal. lia. }
      exists t. split; [lia|exact Hv].
Qed.

Lemma turn_between_back (v : Z -> Z) (value : Z) : forall (r : nat) k,
  v k = value -> v (k + Z.of_nat r) <> value ->
  exists t, k < t <= k + Z.of_nat r /\ v (t - 1) <> v t.
Proof.
  induction r as [|r IH]; intros k H0 H1.
  - elim H1. rewrite <- H0. f_equal. lia.
  - destruct (Z.eq_dec (v (k + 1)) value) as [He|He].
    + destruct (IH (k + 1) He) as (t & Ht & Hv).
      { intros H. apply H1. rewrite <- H. f_equal. lia. }
      exists t. split; [lia|exact Hv].
    + exists (k + 1). split; [lia|]. replace (k + 1 - 1) with k by lia. congruence.
Qed.

Lemma dilate_line_ok m start stride n d value :
  0 < stride -> 1 <= n -> n < 2147483648 -> n * stride < W32 -> 0 < d <= n ->
  (forall k, 0 <= k < n -> inb m (cell start stride k) = true) ->
  (forall k, 0 <= k < n -> get m (cell start stride k) = 0 \/ get m (cell start stride k) = 255) ->
  value = 0 \/ value = 255 ->
  exists m', dilate_line m start stride n d value = Ok m' /\ same_len m m' /\
    (forall q, (forall k, 0 <= k < n -> q <> cell start stride k) -> get m' q = get m q) /\
    (forall k, 0 <= k < n ->
       (get m' (cell start stride k) = 0 \/ get m' (cell start stride k) = 255) /\
       (get m' (cell start stride k) = value <->
        exists k', 0 <= k' < n /\ Z.abs (k - k') <= d /\ get m (cell start stride k') = value)).
Proof.
  intros Hs Hn Hn31 Hsz Hd Hin Hbin Hval. set (C := cell start stride) in *.
  set (v := fun k => get m (C k)).
  unfold dilate_line.
  assert (H0 : inb m start = true).
  { replace start with (C 0) by (unfold C, cell; apply padd_0). apply Hin. lia. }
  rewrite load_ok by exact H0. cbn [bind].
  destruct (@scan_loop m start stride n d value Hs Hn Hn31 Hsz Hd Hin Hbin (Z.to_nat (n - 1)) (fuel_of n) 1 [])
    as (s & extra & E1 & E2 & E3 & E4); try (unfold fuel_of; cbn [length]; lia).
  replace (cell start stride 1) with (padd start stride) in E1 by (unfold cell; f_equal; lia).
  replace (lv m start stride (1 - 1)) with (get m start) in E1
    by (unfold lv, cell; change ((1 - 1) * stride) with 0; rewrite padd_0; reflexivity).
  unfold pend in E1. rewrite E1. cbn [bind]. rewrite E2. cbn [app].
  destruct (paint_ok start stride n value extra m) as (m' & P1 & P2 & P3 & P4); try lia; auto.
  exists m'. split; [exact P1|]. split; [exact P2|]. split; [exact P3|].
  intros k Hk. destruct (P4 k Hk) as (Pc & Pn). fold C in Pc, Pn. specialize (E4 k Hk).
  assert (Hnear : covered extra k \/ v k = value <->
                  exists k', 0 <= k' < n /\ Z.abs (k - k') <= d /\ v k' = value).
  { rewrite E4. split.
    - intros [(t & (Ht & Hne) & _ & Hkt)|He].
      + change (v (t - 1) <> v t) in Hne.
        assert (v (t - 1) = value \/ v t = value) as [G|G].
        { destruct (Hbin (t - 1) ltac:(lia)) as [A|A], (Hbin t ltac:(lia)) as [B|B];
            fold (v (t - 1)) in A; fold (v t) in B; lia. }
        * exists (t - 1). split; [lia|]. split; [lia|exact G].
        * exists t. split; [lia|]. split; [lia|exact G].
      + exists k. split; [exact Hk|]. split; [lia|exact He].
    - intros (k' & Hk' & Hab & He).
      destruct (Z.eq_dec (v k) value) as [|Hne]; [right; assumption|]. left.
      destruct (Z_lt_dec k k') as [Hlt|Hge].
      + destruct (turn_between v value (Z.to_nat (k' - k)) k Hne) as (t & Ht & Hv).
        { rewrite <- He. f_equal. lia. }
        exists t. split; [split; [lia|exact Hv]|]. lia.
      + assert (k' <> k) by congruence.
        destruct (turn_between_back v value (Z.to_nat (k - k')) k' He) as (t & Ht & Hv).
        { replace (k' + Z.of_nat (Z.to_nat (k - k'))) with k by lia. exact Hne. }
        exists t. split; [split; [lia|exact Hv]|]. lia. }
  assert (Dec : covered extra k \/ ~ covered extra k).
  { clear. induction extra as [|[a b] l IH]; [right; intros (ab & [] & _)|].
    destruct IH as [IH|IH].
    - left. destruct IH as (ab & H1 & H2). exists ab. split; [right; exact H1|exact H2].
    - destruct (Z_le_dec a k), (Z_lt_dec k b);
        try (left; exists (a, b); split; [left; reflexivity|cbn; lia]);
        right; intros (ab & [<-|H1] & H2); cbn in H2; try lia; apply IH; exists ab; auto. }
  destruct Dec as [D|D].
  - rewrite (Pc D). split; [exact Hval|]. split; [intros _; apply Hnear; left; exact D|auto].
  - rewrite (Pn D). split; [apply Hbin; exact Hk|]. unfold v in Hnear. rewrite <- Hnear. tauto.
Qed.

(** All lines of a region: line [l] starts at [base + l * ls], its samples are [stride] apart. *)
Lemma dilate_lines_ok m base ls stride nl n d value :
  let C l k := padd base (l * ls + k * stride) in
  0 < stride -> 0 < ls -> 1 <= n -> n < 2147483648 -> n * stride < W32 -> 0 < d <= n -> 0 <= nl ->
  (forall l k l' k', 0 <= l < nl -> 0 <= k < n -> 0 <= l' < nl -> 0 <= k' < n ->
     C l k = C l' k' -> l = l' /\ k = k') ->
  (forall l k, 0 <= l < nl -> 0 <= k < n -> inb m (C l k) = true) ->
  (forall l k, 0 <= l < nl -> 0 <= k < n -> get m (C l k) = 0 \/ get m (C l k) = 255) ->
  value = 0 \/ value = 255 ->
  exists m', walk nl [base] [ls] (padd base (nl * ls))
               (fun cs m => dilate_line m (c0 cs) stride n d value) m = Ok m' /\ same_len m m' /\
    (forall q, (forall l k, 0 <= l < nl -> 0 <= k < n -> q <> C l k) -> get m' q = get m q) /\
    (forall l k, 0 <= l < nl -> 0 <= k < n ->
       (get m' (C l k) = 0 \/ get m' (C l k) = 255) /\
       (get m' (C l k) = value <->
        exists k', 0 <= k' < n /\ Z.abs (k - k') <= d /\ get m (C l k') = value)).
Proof.
  intros C Hs Hls Hn Hn31 Hsz Hd Hnl Hinj Hin Hbin Hval.
  rewrite (@walk_iterM mem mem nl); [|lia|lia|reflexivity|reflexivity].
  destruct (@iterM_inv mem mem
    (fun j t => same_len m t /\
       (forall q, (forall l k, 0 <= l < j -> 0 <= k < n -> q <> C l k) -> get t q = get m q) /\
       (forall l k, 0 <= l < j -> 0 <= k < n ->
          (get t (C l k) = 0 \/ get t (C l k) = 255) /\
          (get t (C l k) = value <->
           exists k', 0 <= k' < n /\ Z.abs (k - k') <= d /\ get m (C l k') = value)))
    (fun j => fun m => dilate_line m (c0 (at_ [base] [ls] j)) stride n d value) (Z.to_nat nl) 0 m)
    as (m' & E & L & F & V).
  - split; [apply same_len_refl|]. split; [auto|]. intros l k Hl. lia.
  - intros j t Hj (L & F & V). unfold c0, at_. cbn [combine map nth fst snd].
    assert (HC : forall k, cell (padd base (j * ls)) stride k = C j k).
    { intros k. unfold cell, C. rewrite padd_padd. reflexivity. }
    assert (Hsame : forall k, 0 <= k < n -> get t (C j k) = get m (C j k)).
    { intros k Hk. apply F. intros l k' Hl Hk' He. destruct (Hinj j k l k') as (? & _); try lia. exact He. }
    destruct (dilate_line_ok t (padd base (j * ls)) stride n d value) as (t' & E' & L' & F' & V'); auto.
    { intros k Hk. rewrite HC, (same_len_inb m t) by assumption. apply Hin; lia. }
    { intros k Hk. rewrite HC, Hsame by assumption. apply Hbin; lia. }
    exists t'. split; [exact E'|]. split; [eapply same_len_trans; eauto|]. split.
    + intros q Hq. rewrite F'.
      * apply F. intros l k Hl Hk. apply Hq; lia.
      * intros k Hk. rewrite HC. apply Hq; lia.
    + intros l k Hl Hk. destruct (Z.eq_dec l j) as [->|Hne].
      * destruct (V' k Hk) as (B & I). rewrite HC in B, I. split; [exact B|]. rewrite I.
        split; intros (k' & Hk' & Ha & He); exists k'; (split; [exact Hk'|]); (split; [exact Ha|]).
        -- rewrite <- Hsame, <- HC by assumption. exact He.
        -- rewrite HC, Hsame by assumption. exact He.
      * rewrite F'.
        -- apply V; lia.
        -- intros k' Hk'. rewrite HC. intros He. destruct (Hinj l k j k') as (? & _); try lia. exact He.
  - exists m'. replace (0 + Z.of_nat (Z.to_nat nl)) with nl in * by lia. auto.
Qed.

(** The samples of a gray-scale region as cells of a grid. *)
Lemma gray_px im x y i j : icc im = 1 ->
  px im (x + i) (y + j) 0 = padd (origin im x y 1) (j * irs im + i).
Proof. intros Hc. rewrite <- Hc, px_origin, Hc. f_equal. lia. Qed.

Definition binary_roi (m : mem) (im : image) (x y w h : Z) : Prop :=
  forall i j, 0 <= i < w -> 0 <= j < h ->
    pixel m im (x + i) (y + j) 0 = 0 \/ pixel m im (x + i) (y + j) 0 = 255.

Lemma rows_pass m im x y w h d value :
  area m im x y w h -> icc im = 1 -> binary_roi m im x y w h -> w < 2147483648 -> 0 < d <= w ->
  value = 0 \/ value = 255 ->
  exists m', walk h [row_ptr im x y 1] [irs im] (padd (row_ptr im x y 1) (u32 (h * irs im)))
               (fun cs m => dilate_line m (c0 cs) 1 w d value) m = Ok m' /\
    only_roi_changed m m' im x y w h /\ binary_roi m' im x y w h /\
    forall i j, 0 <= i < w -> 0 <= j < h ->
      (pixel m' im (x + i) (y + j) 0 = value <->
       exists i', 0 <= i' < w /\ Z.abs (i - i') <= d /\ pixel m im (x + i') (y + j) 0 = value).
Proof.
  intros (W & R) Hc Hb Hw Hd Hval.
  pose proof (wf_rs_pos _ _ W) as Hrs. pose proof (roi_rows_small m im x y w h W R) as Hsm.
  destruct R as [Rx Ry Rw Rh Rxw Ryh]. pose proof (mkRoi im x y w h Rx Ry Rw Rh Rxw Ryh) as R.
  pose proof W32_val as HW.
  rewrite (row_ptr_origin m im x y w h) by (auto; lia). rewrite u32_small by nia.
  set (base := origin im x y 1).
  assert (HC : forall i j, padd base (j * irs im + i * 1) = px im (x + i) (y + j) 0).
  { intros i j. rewrite gray_px by assumption. unfold base. f_equal. lia. }
  destruct (dilate_lines_ok m base (irs im) 1 h w d value) as (m' & E & L & F & V); try lia.
  - intros l k l' k' Hl Hk Hl' Hk'. rewrite !Z.mul_1_r. intros He. unfold base in He.
    rewrite <- Hc in He.
    destruct (cell_inj m im x y w h k l k' l') as (? & ?); try (rewrite ?Hc, ?Z.mul_1_r; lia); auto.
  - intros l k Hl Hk. rewrite Z.mul_1_r. unfold base. rewrite <- Hc.
    apply (cell_inb m im x y w h); auto; rewrite Hc; lia.
  - intros l k Hl Hk. rewrite HC. apply Hb; assumption.
  - exists m'. split; [exact E|]. split; [|split].
    + split; [exact L|]. intros q Hq. apply F. intros l k Hl Hk. rewrite HC. apply Hq.
      unfold inside. rewrite Hc. lia.
    + intros i j Hi Hj. unfold pixel. rewrite <- HC. apply V; assumption.
    + intros i j Hi Hj. unfold pixel. rewrite <- HC. destruct (V j i Hj Hi) as (_ & V'). rewrite V'.
      split; intros (k' & Hk' & Ha & He); exists k'; (split; [exact Hk'|]); (split; [exact Ha|]);
        [rewrite <- HC|rewrite HC]; exact He.
Qed.

Lemma columns_pass m im x y w h d value :
  area m im x y w h -> icc im = 1 -> binary_roi m im x y w h -> h < 2147483648 -> 0 < d <= h ->
  value = 0 \/ value = 255 ->
  exists m', walk w [row_ptr im x y 1] [1] (padd (row_ptr im x y 1) w)
               (fun cs m => dilate_line m (c0 cs) (irs im) h d value) m = Ok m' /\
    only_roi_changed m m' im x y w h /\ binary_roi m' im x y w h /\
    forall i j, 0 <= i < w -> 0 <= j < h ->
      (pixel m' im (x + i) (y + j) 0 = value <->
       exists j', 0 <= j' < h /\ Z.abs (j - j') <= d /\ pixel m im (x + i) (y + j') 0 = value).
Proof.
  intros (W & R) Hc Hb Hw Hd Hval.
  pose proof (wf_rs_pos _ _ W) as Hrs. pose proof (roi_rows_small m im x y w h W R) as Hsm.
  destruct R as [Rx Ry Rw Rh Rxw Ryh]. pose proof (mkRoi im x y w h Rx Ry Rw Rh Rxw Ryh) as R.
  pose proof W32_val as HW.
  rewrite (row_ptr_origin m im x y w h) by (auto; lia).
  set (base := origin im x y 1).
  assert (HC : forall i j, padd base (i * 1 + j * irs im) = px im (x + i) (y + j) 0).
  { intros i j. rewrite gray_px by assumption. unfold base. f_equal. lia. }
  destruct (dilate_lines_ok m base 1 (irs im) w h d value) as (m' & E & L & F & V); try lia.
  - intros l k l' k' Hl Hk Hl' Hk'. rewrite !Z.mul_1_r. intros He. unfold base in He.
    rewrite <- Hc in He. rewrite (Z.add_comm l), (Z.add_comm l') in He.
    destruct (cell_inj m im x y w h l k l' k') as (? & ?); try (rewrite ?Hc, ?Z.mul_1_r; lia); auto.
  - intros l k Hl Hk. rewrite Z.mul_1_r, Z.add_comm. unfold base. rewrite <- Hc.
    apply (cell_inb m im x y w h); auto; rewrite Hc; lia.
  - intros l k Hl Hk. rewrite HC. apply Hb; assumption.
  - rewrite Z.mul_1_r in E. exists m'. split; [exact E|]. split; [|split].
    + split; [exact L|]. intros q Hq. apply F. intros l k Hl Hk. rewrite HC. apply Hq.
      unfold inside. rewrite Hc. lia.
    + intros i j Hi Hj. unfold pixel. rewrite <- HC. apply V; assumption.
    + intros i j Hi Hj. unfold pixel. rewrite <- HC. destruct (V i j Hi Hj) as (_ & V'). rewrite V'.
      split; intros (k' & Hk' & Ha & He); exists k'; (split; [exact Hk'|]); (split; [exact Ha|]);
        [rewrite <- HC|rewrite HC]; exact He.
Qed.

Lemma area_frame m m' im x y w h : area m im x y w h -> (forall b, len m' b = len m b) -> area m' im x y w h.
Proof. intros (W & R) L. split; [|exact R]. destruct W. constructor; auto. rewrite L. assumption. Qed.

Lemma Dilate_ok m im x y w h dx dy value :
  area m im x y w h -> icc im = 1 -> binary_roi m im x y w h ->
  w < 2147483648 -> h < 2147483648 -> 0 <= dx -> 0 <= dy -> value = 0 \/ value = 255 ->
  exists m', Dilate m im x y w h dx dy value = Ok m' /\
    only_roi_changed m m' im x y w h /\ binary_roi m' im x y w h /\
    forall i j, 0 <= i < w -> 0 <= j < h ->
      (pixel m' im (x + i) (y + j) 0 = value <->
       exists i' j', 0 <= i' < w /\ 0 <= j' < h /\
         Z.abs (i - i') <= Z.min dx (w / 2) /\ Z.abs (j - j') <= Z.min dy (h / 2) /\
         pixel m im (x + i') (y + j') 0 = value).
Proof.
  intros A Hc Hb Hw Hh Hdx Hdy Hval. pose proof A as (W & R).
  assert (Hrw : 0 < w) by apply R. assert (Hrh : 0 < h) by apply R.
  unfold Dilate. rewrite (valid_roi_ok m) by assumption.
  unfold is_gray, GRAY_SCALE. rewrite Hc. cbn [Z.eqb Pos.eqb].
  assert (Hsame : only_roi_changed m m im x y w h) by (split; auto).
  destruct ((dx =? 0) && (dy =? 0)) eqn:E0.
  { apply andb_prop in E0. destruct E0 as (E1 & E2). apply Z.eqb_eq in E1, E2. subst dx dy.
    exists m. split; [reflexivity|]. split; [exact Hsame|]. split; [exact Hb|].
    intros i j Hi Hj. split.
    - intros He. exists i, j. repeat split; lia.
    - intros (i' & j' & Hi' & Hj' & Ha & Hb' & He). replace i with i' by lia. replace j with j' by lia.
      exact He. }
  replace (if w / 2 <? dx then w / 2 else dx) with (Z.min dx (w / 2))
    by (destruct (Z.ltb_spec (w / 2) dx); lia).
  replace (if h / 2 <? dy then h / 2 else dy) with (Z.min dy (h / 2))
    by (destruct (Z.ltb_spec (h / 2) dy); lia).
  set (rx := Z.min dx (w / 2)) in *. set (ry := Z.min dy (h / 2)) in *.
  assert (Hrx : 0 <= rx <= w) by lia. assert (Hry : 0 <= ry <= h) by lia.
  clearbody rx ry.
  assert (H1 : exists m1, (if 0 <? rx then
             walk h [row_ptr im x y 1] [irs im] (padd (row_ptr im x y 1) (u32 (h * irs im)))
               (fun cs m => dilate_line m (c0 cs) 1 w rx value) m
           else Ok m) = Ok m1 /\ only_roi_changed m m1 im x y w h /\ binary_roi m1 im x y w h /\
    forall i j, 0 <= i < w -> 0 <= j < h ->
      (pixel m1 im (x + i) (y + j) 0 = value <->
       exists i', 0 <= i' < w /\ Z.abs (i - i') <= rx /\ pixel m im (x + i') (y + j) 0 = value)).
  { destruct (Z.ltb_spec 0 rx).
    - apply rows_pass; auto. lia.
    - exists m. split; [reflexivity|]. split; [exact Hsame|]. split; [exact Hb|].
      intros i j Hi Hj. split.
      + intros He. exists i. repeat split; try lia; assumption.
      + intros (i' & Hi' & Ha & He). replace i with i' by lia. exact He. }
  destruct H1 as (m1 & E1 & (L1 & F1) & B1 & V1). rewrite E1. cbn [bind].
  assert (H2 : exists m2, (if 0 <? ry then
             walk w [row_ptr im x y 1] [1] (padd (row_ptr im x y 1) w)
               (fun cs m => dilate_line m (c0 cs) (irs im) h ry value) m1
           else Ok m1) = Ok m2 /\ only_roi_changed m1 m2 im x y w h /\ binary_roi m2 im x y w h /\
    forall i j, 0 <= i < w -> 0 <= j < h ->
      (pixel m2 im (x + i) (y + j) 0 = value <->
       exists j', 0 <= j' < h /\ Z.abs (j - j') <= ry /\ pixel m1 im (x + i) (y + j') 0 = value)).
  { destruct (Z.ltb_spec 0 ry).
    - apply columns_pass; auto; [apply (area_frame m); auto|lia].
    - exists m1. split; [reflexivity|]. split; [split; auto|]. split; [exact B1|].
      intros i j Hi Hj. split.
      + intros He. exists j. repeat split; try lia; assumption.
      + intros (j' & Hj' & Ha & He). replace j with j' by lia. exact He. }
  destruct H2 as (m2 & E2 & (L2 & F2) & B2 & V2).
  exists m2. split; [exact E2|]. split; [|split].
  - split; [intros b; rewrite L2; apply L1|]. intros q Hq. rewrite F2 by exact Hq. apply F1. exact Hq.
  - exact B2.
  - intros i j Hi Hj. rewrite (V2 i j Hi Hj). split.
    + intros (j' & Hj' & Ha & He). apply (V1 i j' Hi Hj') in He. destruct He as (i' & Hi' & Ha' & He).
      exists i', j'. repeat split; try lia; assumption.
    + intros (i' & j' & Hi' & Hj' & Ha & Ha' & He). exists j'. split; [exact Hj'|]. split; [exact Ha'|].
      apply (V1 i j' Hi Hj'). exists i'. auto.
Qed.
