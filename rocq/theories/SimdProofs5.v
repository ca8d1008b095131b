(** * RgbToBgr of the SIMD layer: packets that write one or two bytes of the next pixel *)

From Coq Require Import ZArith Lia List Bool.
From Verif Require Import Base Image Spec BaseProofs ImgFun ImgLemmas ImgProofs ConvProofs ReduceProofs
  Simd StepProofs SimdProofs SimdProofs1 SimdProofs2 SimdProofs4.
Import ListNotations.
Local Open Scope Z_scope.
Local Open Scope res_scope.
Ltac Zify.zify_post_hook ::= Z.div_mod_to_equations.

(** Where byte [k] of a packet of [K] whole pixels comes from. *)
Definition bgr_src (K k : Z) : Z := if k <? 3 * K then k + 2 - 2 * (k mod 3) else k.

Definition bgr_step_ok (n : nat) (step : mem -> ptr -> ptr -> res mem mem) : Prop :=
  forall m pa s pd s',
  (forall i, s <= i < s + Z.of_nat n -> inb m (padd pa i) = true) ->
  (forall i, s' <= i < s' + Z.of_nat n -> inb m (padd pd i) = true) ->
  (forall i i', s <= i < s + Z.of_nat n -> s' <= i' < s' + Z.of_nat n -> padd pd i' <> padd pa i) ->
  step_ok (fun t => step t (padd pa s) (padd pd s')) m (map (padd pa) (zseq s n))
    (map (fun k => (padd pd k, get m (padd pa (s + bgr_src (Z.of_nat n / 3) (k - s'))))) (zseq s' n)).

Lemma list_zseq (g : Z -> Z) l s :
  l = map g (zseq s (length l)) <-> forall k, (k < length l)%nat -> nth k l 0 = g (s + Z.of_nat k).
Proof.
  split.
  - intros E k Hk. rewrite E, (nth_indep _ 0 (g 0)) by (rewrite map_length, zseq_length; lia).
    rewrite map_nth, zseq_nth by lia. reflexivity.
  - intros H. apply (nth_ext _ _ 0 0); [rewrite map_length, zseq_length; reflexivity|].
    intros k Hk. rewrite H by assumption. rewrite (nth_indep _ 0 (g 0)) by (rewrite map_length, zseq_length; lia).
    rewrite map_nth, zseq_nth by lia. reflexivity.
Qed.

Lemma zseq_shift n : forall s d, zseq (s + d) n = map (fun k => k + d) (zseq s n).
Proof.
  induction n as [|n IH]; intros s d; [reflexivity|]. cbn [zseq map]. f_equal.
  rewrite <- IH. f_equal. lia.
Qed.

(** One load, a permutation of the bytes, one store. *)
Lemma permute_step (F : list Z -> reg) (idx : list Z) n m pa s pd s' (V : Z -> Z) :
  (forall l, length l = n -> concat (F l) = map (fun i => nth (Z.to_nat i) l 0) idx) ->
  length idx = n -> (forall i, In i idx -> 0 <= i < Z.of_nat n) ->
  map V (zseq 0 n) = map (fun i => get m (padd pa (s + i))) idx ->
  (forall i, s <= i < s + Z.of_nat n -> inb m (padd pa i) = true) ->
  (forall i, s' <= i < s' + Z.of_nat n -> inb m (padd pd i) = true) ->
  step_ok (fun t => bind (loads t (span (padd pa s) n)) (fun l => storeu t (padd pd s') (F l))) m
    (map (padd pa) (zseq s n)) (map (fun k => (padd pd k, V (k - s'))) (zseq s' n)).
Proof.
  intros HF Hl Hi HV Ha Hd. apply load_store_step; auto.
  rewrite HF by (rewrite map_length; apply zseq_length).
  transitivity (map V (zseq 0 n)).
  - rewrite HV. apply map_ext_in. intros i Hin. specialize (Hi i Hin).
    set (G := fun i => get m (padd pa i)).
    rewrite (nth_indep _ 0 (G 0)) by (rewrite map_length, zseq_length; lia).
    rewrite map_nth, zseq_nth by lia. unfold G. do 2 f_equal. lia.
  - replace (zseq s' n) with (zseq (0 + s') n) by (f_equal; lia).
    rewrite zseq_shift, map_map. apply map_ext. intros k. f_equal. lia.
Qed.

Ltac idx_range := intros i Hin; repeat (destruct Hin as [<-|Hin]; [lia|]); destruct Hin.

Lemma bgr_sse_step : bgr_step_ok 16 bgr_sse.
Proof.
  intros m pa s pd s' Ha Hd _.
  apply (step_ok_ext (fun t => bind (loads t (span (padd pa s) 16))
     (fun l => storeu t (padd pd s') (shuffle_epi8 (lanes 1 16 l) [[2; 1; 0; 5; 4; 3; 8; 7; 6; 11; 10; 9; 14; 13; 12; 15]])))).
  - intros t. unfold bgr_sse. rewrite loadu_unfold. reflexivity.
  - apply (permute_step _ [2; 1; 0; 5; 4; 3; 8; 7; 6; 11; 10; 9; 14; 13; 12; 15] 16 m pa s pd s'
      (fun k => get m (padd pa (s + bgr_src (Z.of_nat 16 / 3) k)))); auto.
    + intros l Hl. split16 l. reflexivity.
    + idx_range.
Qed.

Lemma bgr_neon_step : bgr_step_ok 8 bgr_neon.
Proof.
  intros m pa s pd s' Ha Hd _.
  apply (permute_step (fun l => [vtbl1_u8 l [2; 1; 0; 5; 4; 3; 6; 7]]) [2; 1; 0; 5; 4; 3; 6; 7] 8 m pa s pd s'
      (fun k => get m (padd pa (s + bgr_src (Z.of_nat 8 / 3) k)))); auto.
  - idx_range.
Qed.

Lemma bgr_avx_step : bgr_step_ok 32 bgr_avx.
Proof.
  intros m pa s pd s' Ha Hd Hdis.
  set (V0 := fun k => get m (padd pa (s + nth (Z.to_nat k)
     [2; 1; 0; 5; 4; 3; 8; 7; 6; 11; 10; 9; 14; 13; 12; 15; 16; 17; 20; 19; 18; 23; 22; 21; 26; 25; 24; 29; 28; 27; 30; 31] 0))).
  assert (H1 : step_ok (fun t => bind (loads t (span (padd pa s) 32)) (fun l => storeu t (padd pd s')
      (shuffle_epi8 (lanes 2 16 l) [[2; 1; 0; 5; 4; 3; 8; 7; 6; 11; 10; 9; 14; 13; 12; 15];
             [16; 17; 20; 19; 18; 23; 22; 21; 26; 25; 24; 29; 28; 27; 30; 31]]))) m
      (map (padd pa) (zseq s 32)) (map (fun k => (padd pd k, V0 (k - s'))) (zseq s' 32))).
  { apply (permute_step _ [2; 1; 0; 5; 4; 3; 8; 7; 6; 11; 10; 9; 14; 13; 12; 15; 16; 17; 20; 19; 18; 23; 22; 21; 26; 25; 24; 29; 28; 27; 30; 31]); auto.
    - intros l Hl. do 32 (let x := fresh "x" in destruct l as [|x l]; [discriminate|]).
      destruct l; [|discriminate]. reflexivity.
    - idx_range. }
  assert (H2 : @step_ok mem (fun t => moves t [(padd (padd pd s') 15, padd (padd pa s) 17); (padd (padd pd s') 17, padd (padd pa s) 15)]) m
     [padd (padd pa s) 17; padd (padd pa s) 15]
     [(padd (padd pd s') 15, get m (padd (padd pa s) 17)); (padd (padd pd s') 17, get m (padd (padd pa s) 15))]).
  { apply (moves_step m [(padd (padd pd s') 15, padd (padd pa s) 17); (padd (padd pd s') 17, padd (padd pa s) 15)]);
      cbn [map fst snd]; rewrite !padd_padd.
    - intros p [<-|[<-|[]]]; apply Hd; lia.
    - intros p [<-|[<-|[]]]; apply Ha; lia.
    - constructor; [|constructor; [intros []|constructor]]. intros [E|[]]. apply padd_inj in E. lia.
    - intros p [<-|[<-|[]]] [E|[E|[]]]; symmetry in E; revert E; apply Hdis; lia. }
  intros t Hl Hs. destruct (H1 t Hl Hs) as (t1 & E1 & L1 & F1 & V1).
  assert (Hs2 : forall q, In q [padd (padd pa s) 17; padd (padd pa s) 15] -> get t1 q = get m q).
  { intros q Hq. rewrite F1.
    - apply Hs. apply in_map_iff. rewrite !padd_padd in Hq.
      destruct Hq as [<-|[<-|[]]]; [exists (s + 17)|exists (s + 15)]; (split; [reflexivity|apply zseq_In; lia]).
    - rewrite map_map. intros Hin. apply in_map_iff in Hin as (k & Hk & Hin). apply zseq_In in Hin. cbn [fst] in Hk.
      rewrite !padd_padd in Hq. destruct Hq as [<-|[<-|[]]]; revert Hk; apply Hdis; lia. }
  destruct (H2 t1) as (t2 & E2 & L2 & F2 & V2); [eapply same_len_trans; eauto|exact Hs2|].
  exists t2. split.
  - unfold bgr_avx. rewrite loadu_unfold. change (2 * 16)%nat with 32%nat.
    destruct (loads t (span (padd pa s) 32)) as [l| | |]; try discriminate E1. cbn [bind] in *.
    rewrite E1. cbn [bind]. exact E2.
  - split; [eapply same_len_trans; eauto|].
    rewrite !padd_padd in *.
    assert (Hpos : forall k v, In (padd pd k, v) [(padd pd (s' + 15), get m (padd pa (s + 17))); (padd pd (s' + 17), get m (padd pa (s + 15)))] ->
        (k = s' + 15 /\ v = get m (padd pa (s + 17))) \/ (k = s' + 17 /\ v = get m (padd pa (s + 15)))).
    { intros k v [E|[E|[]]]; injection E as E E'; [left|right]; (split; [|congruence]).
      - assert (Hp : padd pd (s' + 15) = padd pd k) by (unfold padd; f_equal; lia). apply padd_inj in Hp. lia.
      - assert (Hp : padd pd (s' + 17) = padd pd k) by (unfold padd; f_equal; lia). apply padd_inj in Hp. lia. }
    split.
    + intros q Hq. rewrite map_map in Hq. cbn [fst] in Hq.
      rewrite F2.
      * apply F1. rewrite map_map. exact Hq.
      * cbn [map fst]. intros Hin. apply Hq. apply in_map_iff.
        destruct Hin as [<-|[<-|[]]]; [exists (s' + 15)|exists (s' + 17)]; (split; [reflexivity|apply zseq_In; lia]).
    + intros p v Hin. apply in_map_iff in Hin as (k & Hk & Hin). apply zseq_In in Hin. injection Hk as <- <-.
      destruct (Z.eq_dec k (s' + 15)) as [->|N1].
      { apply V2. left. f_equal. do 2 f_equal. replace (s' + 15 - s') with 15 by lia. reflexivity. }
      destruct (Z.eq_dec k (s' + 17)) as [->|N2].
      { apply V2. right. left. f_equal. do 2 f_equal. replace (s' + 17 - s') with 17 by lia. reflexivity. }
      rewrite F2.
      * rewrite (V1 (padd pd k) (V0 (k - s'))).
        -- unfold V0. do 3 f_equal.
           assert (Hr : 0 <= k - s' < 32) by lia. assert (M1 : k - s' <> 15) by lia. assert (M2 : k - s' <> 17) by lia.
           generalize dependent (k - s'). clear. intros x Hr M1 M2.
           assert (Hx : In x (zseq 0 32)) by (apply zseq_In; lia).
           revert M1 M2. cbn [zseq] in Hx.
           repeat (destruct Hx as [<-|Hx]; [intros; try reflexivity; exfalso; lia|]). destruct Hx.
        -- apply in_map_iff. exists k. split; [reflexivity|]. apply zseq_In. lia.
      * cbn [map fst]. intros [E|[E|[]]]; apply padd_inj in E; lia.
Qed.

(** ** The rows *)

Lemma bgr_rows_ok (k cnt tl : nat) n step m inY outY rsi rso h :
  (0 < k)%nat -> (0 < tl)%nat -> (3 * k <= n <= 3 * k + 2)%nat -> Z.of_nat n / 3 = Z.of_nat k ->
  bgr_step_ok n step -> 0 <= h -> 0 < rso -> h * rso < W32 ->
  let U := Z.of_nat (cnt * k + tl) in
  let ok j i := 0 <= j < h /\ 0 <= i < 3 * U in
  let a j i := padd inY (j * rsi + i) in
  let d j i := padd outY (j * rso + i) in
  (forall j i, ok j i -> inb m (a j i) = true /\ inb m (d j i) = true) ->
  (forall j i j' i', ok j i -> ok j' i' -> d j i = d j' i' -> j = j' /\ i = i') ->
  (forall j i j' i', ok j i -> ok j' i' -> d j i <> a j' i') ->
  exists m', bgr_rows (3 * Z.of_nat k) (Z.of_nat cnt * (3 * Z.of_nat k)) (3 * Z.of_nat tl) step m inY outY rsi rso h = Ok m' /\
    same_len m m' /\
    (forall q, (forall j i, ok j i -> q <> d j i) -> get m' q = get m q) /\
    (forall j i, ok j i -> get m' (d j i) = get m (a j (i + 2 - 2 * (i mod 3)))).
Proof.
  intros Hk Htl Hn Hn3 Hst Hh Hrso Hsm U ok a d Hcell Hinj Hdis.
  set (K := Z.of_nat k) in *. set (T := Z.of_nat tl) in *. set (C := Z.of_nat cnt) in *.
  assert (HUe : U = C * K + T) by (subst U C K T; lia).
  set (oj := fun j => padd outY (j * rso)). set (ij := fun j => padd inY (j * rsi)).
  set (packet := fun j q (t : mem) => step t (padd (ij j) (q * (3 * K))) (padd (oj j) (q * (3 * K)))).
  set (single := fun j i (t : mem) =>
    let dp := padd (oj j) (3 * (C * K + i)) in let sp := padd (ij j) (3 * (C * K + i)) in
    @moves mem t [(padd dp 2, sp); (padd dp 1, padd sp 1); (dp, padd sp 2)]).
  assert (Hrun : bgr_rows (3 * K) (C * (3 * K)) (3 * T) step m inY outY rsi rso h
     = iterM (Z.to_nat h) 0 (fun j t => bind (iterM cnt 0 (packet j) t) (iterM tl 0 (single j))) m).
  { unfold bgr_rows. rewrite walk_rows by (auto; lia).
    apply iterM_ext. intros j t Hj. unfold at_, c0, c1. cbn [combine map nth fst snd].
    replace (C * (3 * K) / (3 * K)) with C by (rewrite Z.div_mul; lia).
    rewrite (walk_iterM C) by (try reflexivity; subst C K; lia).
    replace (iterM (Z.to_nat C) 0 _ t) with (iterM cnt 0 (packet j) t).
    2:{ replace (Z.to_nat C) with cnt by (subst C; lia). reflexivity. }
    apply bind_ext. intros t' _.
    replace (0 <? 3 * T) with true by (symmetry; apply Z.ltb_lt; subst T; lia).
    rewrite (walk_iterM T) by (try reflexivity; try (f_equal; ring); subst T; lia).
    replace (Z.to_nat T) with tl by (subst T; lia).
    apply iterM_ext. intros i u Hi. unfold single, oj, ij, at_. cbn [combine map nth fst snd]. rewrite !padd_padd.
    replace (C * (3 * K) + i * 3) with (3 * (C * K + i)) by lia.
    replace (C * (3 * K) + (i * 3 + 1)) with (3 * (C * K + i) + 1) by lia.
    replace (C * (3 * K) + (i * 3 + 2)) with (3 * (C * K + i) + 2) by lia. reflexivity. }
  assert (HU : forall j i, 0 <= j < h /\ 0 <= i < U <-> 0 <= j < Z.of_nat (Z.to_nat h) /\ 0 <= i < Z.of_nat (cnt * k + tl)).
  { intros j i. fold U. lia. }
  set (v := fun j x => get m (padd (ij j) (x + 2 - 2 * (x mod 3)))).
  set (row := fun j => map (padd (ij j)) (zseq 0 (Z.to_nat (3 * U)))).
  assert (Hrow : forall j x, 0 <= x < 3 * U -> In (padd (ij j) x) (row j)).
  { intros j x Hx. unfold row. apply in_map. apply zseq_In. lia. }
  set (extra := fun j q => map (fun x => (padd (oj j) x, get m (padd (ij j) x))) (zseq ((q + 1) * (3 * K)) (n - 3 * k))).
  destruct (@units_rows mem (Z.to_nat h) cnt tl k (fun j _ => row j) (fun j i => triple (oj j) (v j) i)
              extra packet single m) as (m' & He & Hl & Hf & Hv).
  - intros j q Hj Hq. fold K. rewrite triples.
    assert (Hrange : q * (3 * K) + Z.of_nat n <= 3 * U) by (subst C K T; nia).
    assert (Hoj : 0 <= j < h) by lia.
    assert (Hmod : forall y, (y - q * (3 * K)) mod 3 = y mod 3).
    { intros y. replace (y - q * (3 * K)) with (y + - (q * K) * 3) by ring. apply Z.mod_add. lia. }
    eapply step_ok_same; [| |apply (Hst m (ij j) (q * (3 * K)) (oj j) (q * (3 * K)))].
    + intros p Hp. apply in_map_iff in Hp as (x & <- & Hx). apply zseq_In in Hx.
      apply in_flat_map. exists (q * K). split; [apply zseq_In; subst K; lia|]. apply Hrow. subst K; nia.
    + intros [p x]. unfold extra. rewrite in_app_iff, !in_map_iff. split.
      * intros (y & Hy & Hin). apply zseq_In in Hin. pose proof (f_equal fst Hy) as Hy1; pose proof (f_equal snd Hy) as Hy2; cbn [fst snd] in Hy1, Hy2; clear Hy; subst p x. rewrite Hn3.
        unfold bgr_src. fold K. destruct (Z.ltb_spec (y - q * (3 * K)) (3 * K)).
        -- left. exists y. split; [|apply zseq_In; subst K; lia]. unfold v. do 3 f_equal.
           rewrite Hmod. lia.
        -- right. exists y. split; [|apply zseq_In; subst K; lia]. do 3 f_equal. lia.
      * rewrite Hn3. fold K. intros [(y & Hy & Hin)|(y & Hy & Hin)]; apply zseq_In in Hin; pose proof (f_equal fst Hy) as Hy1; pose proof (f_equal snd Hy) as Hy2; cbn [fst snd] in Hy1, Hy2; clear Hy; subst p x;
          exists y; (split; [|apply zseq_In; subst K; lia]); unfold bgr_src.
        -- destruct (Z.ltb_spec (y - q * (3 * K)) (3 * K)); [|subst K; lia]. unfold v. do 3 f_equal.
           rewrite Hmod. lia.
        -- destruct (Z.ltb_spec (y - q * (3 * K)) (3 * K)); [subst K; lia|]. do 3 f_equal. lia.
    + intros i Hi. unfold ij. rewrite padd_padd. apply (Hcell j i). split; [lia|]. subst K; nia.
    + intros i Hi. unfold oj. rewrite padd_padd. apply (Hcell j i). split; [lia|]. subst K; nia.
    + intros i i' Hi Hi'. unfold oj, ij. rewrite !padd_padd. apply (Hdis j i' j i); split; try lia; subst K; nia.
  - intros j i Hj Hi. fold C K. unfold single. set (u := C * K + i).
    assert (Hu : 0 <= u < U) by (subst u C K T; lia). assert (Hoj : 0 <= j < h) by lia.
    set (dp := padd (oj j) (3 * u)). set (sp := padd (ij j) (3 * u)).
    assert (Ed : forall c, padd dp c = d j (3 * u + c)).
    { intros c. unfold dp, oj, d. rewrite !padd_padd. reflexivity. }
    assert (Es : forall c, padd sp c = a j (3 * u + c)).
    { intros c. unfold sp, ij, a. rewrite !padd_padd. reflexivity. }
    assert (Ed0 : dp = d j (3 * u)) by (rewrite <- (padd_0 dp), Ed; f_equal; lia).
    assert (Es0 : sp = a j (3 * u)) by (rewrite <- (padd_0 sp), Es; f_equal; lia).
    assert (Hin3 : forall c, 0 <= c < 3 -> ok j (3 * u + c)) by (intros c Hc; split; lia).
    assert (Hin0 : ok j (3 * u)) by (split; lia).
    eapply step_ok_same; [| |apply (moves_step m [(padd dp 2, sp); (padd dp 1, padd sp 1); (dp, padd sp 2)])];
      cbn [map fst snd].
    + intros p [<-|[<-|[<-|[]]]]; [rewrite Es0|rewrite Es|rewrite Es];
        match goal with |- In (a j ?x) _ => replace (a j x) with (padd (ij j) x) by (unfold ij, a; rewrite padd_padd; reflexivity) end;
        apply Hrow; lia.
    + rewrite !Ed, !Es, Ed0, Es0. intros [p x]. unfold triple, v, oj, ij. rewrite !padd_padd. cbn [In].
      replace (3 * u + 2 - 2 * ((3 * u) mod 3)) with (3 * u + 2) by lia.
      replace (3 * u + 1 + 2 - 2 * ((3 * u + 1) mod 3)) with (3 * u + 1) by lia.
      replace (3 * u + 2 + 2 - 2 * ((3 * u + 2) mod 3)) with (3 * u) by lia.
      fold (d j (3 * u)) (d j (3 * u + 1)) (d j (3 * u + 2)). fold (a j (3 * u)) (a j (3 * u + 1)) (a j (3 * u + 2)). tauto.
    + rewrite !Ed, Ed0. intros p [<-|[<-|[<-|[]]]]; apply Hcell; auto; apply Hin3; lia.
    + rewrite !Es, Es0. intros p [<-|[<-|[<-|[]]]]; apply Hcell; auto; apply Hin3; lia.
    + rewrite !Ed, Ed0.
      assert (Hne : forall c c', c <> c' -> d j c <> d j c').
      { intros c c' Hc E. unfold d in E. apply padd_inj in E. lia. }
      apply NoDup_cons; [intros [E|[E|[]]]; revert E; apply Hne; lia|].
      apply NoDup_cons; [intros [E|[]]; revert E; apply Hne; lia|].
      apply NoDup_cons; [intros []|apply NoDup_nil].
    + rewrite !Ed, !Es, Ed0, Es0. intros p [<-|[<-|[<-|[]]]] [E|[E|[E|[]]]]; symmetry in E; revert E; apply Hdis; auto; apply Hin3; lia.
  - intros j i j' i' p H1 H2 P1 P2. apply HU in H1, H2.
    apply In_triple_fst in P1 as (c & Hc & ->). apply In_triple_fst in P2 as (c' & Hc' & Heq).
    unfold oj in Heq. rewrite !padd_padd in Heq. apply Hinj in Heq; unfold ok; lia.
  - intros j i j' i' p H1 H2 P1 Hp. apply HU in H1, H2. exfalso.
    apply In_triple_fst in P1 as (c & Hc & Heq). apply in_map_iff in Hp as (x & Hx & Hin). apply zseq_In in Hin.
    unfold oj, ij in *. rewrite padd_padd in *. rewrite Heq in Hx. symmetry in Hx. revert Hx. apply Hdis; unfold ok; lia.
  - intros j q p Hj Hq Hin. unfold extra in Hin. rewrite map_map in Hin. apply in_map_iff in Hin as (x & <- & Hin).
    apply zseq_In in Hin. cbn [fst]. fold K. split.
    + exists ((q + 1) * K). split; [fold U; subst C K T; nia|]. apply In_triple_fst.
      exists (x - 3 * ((q + 1) * K)). split; [subst K; lia|]. f_equal. lia.
    + intros j' i' Hok Hp. apply HU in Hok. apply in_map_iff in Hp as (y & Hy & Hin'). apply zseq_In in Hin'.
      unfold oj, ij in Hy. rewrite !padd_padd in Hy. symmetry in Hy. revert Hy. apply Hdis; unfold ok; subst C K T; nia.
  - exists m'. split; [rewrite Hrun; exact He|]. split; [exact Hl|]. split.
    + intros q Hq. apply Hf. intros j i Hok Hin. apply HU in Hok.
      apply In_triple_fst in Hin as (c & Hc & ->). apply (Hq j (3 * i + c)); [unfold ok; lia|].
      unfold oj, d. rewrite padd_padd. reflexivity.
    + intros j i (Hj & Hi). specialize (Hv j (i / 3) (d j i) (v j i)). rewrite Hv.
      * unfold v, ij, a. rewrite padd_padd. reflexivity.
      * apply HU. lia.
      * apply In_triple. exists (i mod 3). split; [lia|].
        replace (3 * (i / 3) + i mod 3) with i by lia. unfold oj, d. rewrite padd_padd. auto.
Qed.

(** Merging the rows of both images keeps the position of a sample in its pixel. *)
Lemma merge3 w h ims w' h' :
  0 < w -> 3 * w < W32 -> 0 < h -> OptimiseRoi (w * 3) h ims = (w', h') ->
  w' mod 3 = 0 /\ w * 3 <= w' < W32 /\ 0 < h' <= h /\
  (forall j i, 0 <= j < h' -> 0 <= i < w' -> exists j0 i0, 0 <= j0 < h /\ 0 <= i0 < w * 3 /\ i mod 3 = i0 mod 3 /\
     forall im, In im ims -> j * irs im + i = j0 * irs im + i0) /\
  (forall j0 i0, 0 <= j0 < h -> 0 <= i0 < w * 3 -> exists j i, 0 <= j < h' /\ 0 <= i < w' /\ i mod 3 = i0 mod 3 /\
     forall im, In im ims -> j * irs im + i = j0 * irs im + i0) /\
  (forall im j i j' i', In im ims -> w * 3 <= irs im -> 0 <= j < h' -> 0 <= i < w' -> 0 <= j' < h' -> 0 <= i' < w' ->
     j * irs im + i = j' * irs im + i' -> j = j' /\ i = i').
Proof.
  intros Hw Hw3 Hh Ho.
  destruct (merge_cells (w * 3) h ims w' h' ltac:(lia) Hh Ho) as (_ & Hh' & Hle & _ & _ & Hinj).
  destruct (OptimiseRoi_cases (w * 3) h ims) as [E1|(E1 & Hlt & Hrs)]; try lia;
    rewrite E1 in Ho; injection Ho as <- <-.
  - split; [lia|]. split; [lia|]. split; [lia|]. split; [|split].
    + intros j i Hj Hi. exists j, i. auto.
    + intros j i Hj Hi. exists j, i. auto.
    + exact Hinj.
  - assert (Hm : forall x y, (x * (w * 3) + y) mod 3 = y mod 3).
    { intros x y. replace (x * (w * 3) + y) with (y + x * w * 3) by ring. apply Z.mod_add. lia. }
    split; [replace (w * 3 * h) with (w * h * 3) by ring; apply Z.mod_mul; lia|].
    split; [lia|]. split; [lia|]. split; [|split].
    + intros j i Hj Hi. exists (i / (w * 3)), (i mod (w * 3)).
      pose proof (Z.mod_pos_bound i (w * 3)). pose proof (Z.div_mod i (w * 3)).
      split; [split; [apply Z.div_pos; lia|apply Z.div_lt_upper_bound; nia]|]. split; [lia|].
      split.
      * rewrite <- (Hm (i / (w * 3)) (i mod (w * 3))). f_equal. lia.
      * intros im Him. rewrite (Hrs im Him). nia.
    + intros j0 i0 Hj Hi. exists 0, (j0 * (w * 3) + i0). split; [lia|]. split; [nia|].
      split; [apply Hm|]. intros im Him. rewrite (Hrs im Him). lia.
    + exact Hinj.
Qed.

(** The shape of the loops for a packet of [n] bytes, [n / 3] whole pixels. *)
Lemma bgr_split w n : 0 < w < W32 -> w mod 3 = 0 -> n <= w -> (n = 16 \/ n = 32 \/ n = 8) ->
  exists cnt tl : nat, (0 < tl)%nat /\ w = 3 * Z.of_nat (cnt * Z.to_nat (n / 3) + tl) /\
    (if nonSimdWidth w (n / 3 * 3) <? n mod 3 then u32 (totalSimdWidth w (n / 3 * 3) - n / 3 * 3)
     else totalSimdWidth w (n / 3 * 3)) = Z.of_nat cnt * (3 * (n / 3)) /\
    (if nonSimdWidth w (n / 3 * 3) <? n mod 3 then u32 (nonSimdWidth w (n / 3 * 3) + n / 3 * 3)
     else nonSimdWidth w (n / 3 * 3)) = 3 * Z.of_nat tl.
Proof.
  intros Hw H3 Hle Hn.
  assert (Hk : exists k, n / 3 = k /\ 2 <= k <= 10 /\ 1 <= n mod 3 <= 2 /\ n = 3 * k + n mod 3).
  { exists (n / 3). lia. }
  destruct Hk as (k & -> & Hk & Hx & En).
  destruct (simd_widths w (k * 3)) as (ET & EN & _ & Hq & Hr & Ew); [lia|lia|]. rewrite ET, EN.
  set (r := n mod 3) in *. clearbody r.
  set (q := w / (k * 3)) in *. set (y := w mod (k * 3)) in *.
  assert (Hy3 : y mod 3 = 0).
  { assert (w = y + q * k * 3) by lia. rewrite H in H3. rewrite Z.mod_add in H3 by lia. exact H3. }
  clearbody q y.
  destruct (Z.ltb_spec y r).
  - assert (y = 0) by lia. subst y.
    assert (0 < q) by nia.
    exists (Z.to_nat (q - 1)), (Z.to_nat k). split; [lia|]. split; [nia|].
    split; [rewrite u32_small by nia; nia|rewrite u32_small by nia; lia].
  - exists (Z.to_nat q), (Z.to_nat (y / 3)). split; [lia|].
    assert (Hy : y = 3 * (y / 3)) by lia.
    split; [rewrite Ew at 1; nia|]. split; [nia|lia].
Qed.

Lemma SimdRgbToBgr_writes b t m inp xi yi out xo yo w h :
  usable b t -> build_ok b = true -> b_neon b = true \/ b_ssse3 b = true \/ t = cpu \/ t = avx512 ->
  wf m inp -> wf m out -> icc inp = 3 -> icc out = 3 ->
  roi_in inp xi yi w h -> roi_in out xo yo w h ->
  disjoint out xo yo w h inp xi yi w h ->
  writes (SimdRgbToBgr b t m inp xi yi out xo yo w h) m out xo yo w h
    (fun i j c => pixel m inp (xi + i) (yi + j) (2 - c)).
Proof.
  intros Hu Hb Hs W1 Wo C Co R1 Ro D.
  assert (Hw0 : 0 < w) by apply Ro. assert (Hh0 : 0 < h) by apply Ro.
  assert (Hsc : writes (RgbToBgr m inp xi yi out xo yo w h) m out xo yo w h
    (fun i j c => pixel m inp (xi + i) (yi + j) (2 - c))) by (apply RgbToBgr_writes; assumption).
  pose proof (wf_rs_pos _ _ Wo) as Hrs. pose proof (roi_rows_small m out xo yo w h Wo Ro) as Hsm.
  pose proof (wf_bounds _ _ Wo) as (Bw & _ & _ & Bwc).
  assert (Hw3 : 3 * w < W32) by (destruct Ro; nia).
  assert (Hker : forall n step w' h', n = 16 \/ n = 32 \/ n = 8 -> bgr_step_ok (Z.to_nat n) step -> n <= w * 3 ->
    OptimiseRoi (w * 3) h [inp; out] = (w', h') ->
    let rn := n / 3 * 3 in
    let short := nonSimdWidth w' rn <? n mod 3 in
    let tsw := if short then u32 (totalSimdWidth w' rn - rn) else totalSimdWidth w' rn in
    let nsw := if short then u32 (nonSimdWidth w' rn + rn) else nonSimdWidth w' rn in
    writes (bgr_rows rn tsw nsw step m (row_ptr inp xi yi 3) (row_ptr out xo yo 3) (irs inp) (irs out) h') m out xo yo w h
      (fun i j c => pixel m inp (xi + i) (yi + j) (2 - c))).
  { intros n step w' h' Hn Hst Hnw Ho rn short tsw nsw.
    destruct (merge3 w h _ w' h' Hw0 Hw3 Hh0 Ho) as (Hm3 & Hww & Hh' & Hto & Hfrom & Hinj).
    destruct (bgr_split w' n) as (cnt & tl & Htl & EW & E1 & E2); auto; try lia.
    fold rn in E1, E2. fold short in E1, E2. fold tsw in E1. fold nsw in E2. rewrite E1, E2.
    rewrite (row_ptr_origin m inp xi yi w h) by (auto; lia).
    rewrite (row_ptr_origin m out xo yo w h) by (auto; lia).
    assert (Hio : In out [inp; out]) by (simpl; auto).
    assert (Hi1 : In inp [inp; out]) by (simpl; auto).
    assert (Hrw : w * 3 <= irs out) by (pose proof (wf_rs _ _ Wo); destruct Ro; nia).
    set (k := Z.to_nat (n / 3)) in *.
    assert (Hk3 : n / 3 = Z.of_nat k) by (subst k; lia).
    unfold rn. rewrite Hk3. replace (Z.of_nat k * 3) with (3 * Z.of_nat k) by lia.
    replace (origin inp xi yi 3) with (origin inp xi yi (icc inp)) by (rewrite C; reflexivity).
    replace (origin out xo yo 3) with (origin out xo yo (icc out)) by (rewrite Co; reflexivity).
    destruct (bgr_rows_ok k cnt tl (Z.to_nat n) step m (origin inp xi yi (icc inp)) (origin out xo yo (icc out)) (irs inp) (irs out) h')
      as (m' & He & Hl & Hf & Hv); auto; try lia.
    - nia.
    - rewrite <- EW. intros j i (Hj & Hi). destruct (Hto j i Hj Hi) as (j0 & i0 & Hj0 & Hi0 & _ & Heq).
      rewrite (Heq inp Hi1), (Heq out Hio). split.
      + apply (cell_inb m inp xi yi w h); auto. lia.
      + apply (cell_inb m out xo yo w h); auto. lia.
    - rewrite <- EW. intros j i j' i' (Hj & Hi) (Hj' & Hi') Heq. apply padd_inj in Heq.
      apply (Hinj out); auto.
    - rewrite <- EW. intros j i j' i' (Hj & Hi) (Hj' & Hi').
      destruct (Hto j i Hj Hi) as (j0 & i0 & Hj0 & Hi0 & _ & Heq).
      destruct (Hto j' i' Hj' Hi') as (j1 & i1 & Hj1 & Hi1' & _ & Heq1).
      rewrite (Heq out Hio), (Heq1 inp Hi1).
      apply (disjoint_samples out xo yo w h inp xi yi w h); auto; lia.
    - rewrite <- EW in Hf, Hv.
      destruct (@writes_of_samples mem (Ok m') m out xo yo w h
        (fun j i => get m (padd (origin inp xi yi (icc inp)) (j * irs inp + (i + 2 - 2 * (i mod 3))))) Wo) as (m'' & E'' & V'' & F'').
      + exists m'. split; [reflexivity|]. split; [exact Hl|]. split.
        * intros q Hq. apply Hf. intros j i (Hj & Hi). destruct (Hto j i Hj Hi) as (j0 & i0 & Hj0 & Hi0 & _ & Heq).
          rewrite (Heq out Hio). apply Hq; lia.
        * intros j0 i0 Hj0 Hi0. rewrite Co in Hi0. destruct (Hfrom j0 i0 Hj0 Hi0) as (j & i & Hj & Hi & Hmod & Heq).
          rewrite <- (Heq out Hio). rewrite Hv by (split; assumption). rewrite <- Hmod. do 2 f_equal.
          pose proof (Heq inp Hi1). lia.
      + injection E'' as <-. exists m'. split; [exact He|]. split; [|exact F''].
        intros i j c Hin. rewrite V'' by assumption. unfold pixel. rewrite px_origin.
        destruct Hin as (_ & _ & Hc). rewrite Co in *. rewrite C. do 2 f_equal.
        replace ((i * 3 + c) mod 3) with c by lia. lia. }
  unfold SimdRgbToBgr, twice, RGB.
  assert (Hva : valid_roi2 inp xi yi out xo yo w h = true).
  { unfold valid_roi2. rewrite !(valid_roi_ok m) by assumption. reflexivity. }
  rewrite Hva, !rgb_true by assumption. cbn [andb].
  rewrite (u32_small (w * 3)) by lia.
  destruct (OptimiseRoi (w * 3) h [inp; out]) as [w' h'] eqn:Ho.
  assert (Hsse : compiled b sse = true -> b_neon b = true \/ b_ssse3 b = true -> compiled_ssse3 b sse = true).
  { cbn [compiled compiled_ssse3]. intros Hc [H1|H1]; rewrite Hc; [|exact H1]. exfalso.
    unfold build_ok in Hb. rewrite H1, Hc in Hb. cbn [andb orb negb] in Hb. discriminate Hb. }
  destruct (is_cpu t || is_avx512 t || (w * 3 <? size8 t)) eqn:E1.
  - destruct (is_avx t && b_avx b) eqn:E2; [|exact Hsc].
    apply andb_true_iff in E2 as [Et Eb].
    destruct (is_cpu sse || is_avx512 sse || (w * 3 <? size8 sse)) eqn:E3; [exact Hsc|].
    apply orb_false_iff in E3 as [_ E3]. apply Z.ltb_ge in E3.
    rewrite Hsse; [cbn [orb]; apply (Hker 16 bgr_sse w' h'); auto; apply bgr_sse_step|apply avx_sse; assumption|].
    destruct Hs as [Hs|[Hs|[-> | ->]]]; auto; discriminate Et.
  - apply orb_false_iff in E1 as [E1 E3]. apply Z.ltb_ge in E3.
    destruct t; cbn [is_cpu is_avx512 orb] in E1; try discriminate E1; (destruct Hu as [Hu|Hu]; [discriminate|]).
    + cbn [compiled] in Hu. cbn [is_avx andb]. rewrite Hu, orb_true_r.
      apply (Hker 32 bgr_avx w' h'); auto; apply bgr_avx_step.
    + rewrite Hsse; [cbn [orb]; apply (Hker 16 bgr_sse w' h'); auto; apply bgr_sse_step|assumption|].
      destruct Hs as [Hs|[Hs|[Hs|Hs]]]; auto; discriminate Hs.
    + cbn [compiled] in Hu. cbn [compiled_ssse3]. rewrite Hu. cbn [orb].
      apply (Hker 8 bgr_neon w' h'); auto; apply bgr_neon_step.
Qed.

(** ** Bit depth conversions with any start column

    Scalar and vector functions compute the start of an input row as if the image had one channel; they
    agree for every start column, input and output being different memory blocks. *)

Lemma conv_gen (n : nat) cnt tail step f (P : Z -> Prop) m inp xi yi out xo yo w h :
  (0 < n)%nat -> conv_step n step f P -> 0 <= cnt -> 0 <= tail -> cnt * Z.of_nat n + tail = w * icc out ->
  wf m inp -> wf m out -> icc inp = icc out ->
  roi_in inp xi yi w h -> roi_in out xo yo w h -> fst (ibase inp) <> fst (ibase out) ->
  (forall x y c, 0 <= x < iw inp -> 0 <= y < ih inp -> 0 <= c < icc inp -> P (pixel m inp x y c)) ->
  writes (conv_rows (Z.of_nat n) cnt (cnt * Z.of_nat n) tail step f m (origin inp xi yi 1) (origin out xo yo (icc out))
       (irs inp) (irs out) h) m out xo yo w h
    (fun i j c => f (get m (padd (origin inp xi yi 1) (j * irs inp + (i * icc out + c))))).
Proof.
  intros Hn Hst Hc Ht' Hsum W1 Wo C R1 Ro Hne HP.
  pose proof (wf_cc_pos _ _ Wo) as Hcc.
  assert (Hw0 : 0 < w) by apply Ro. assert (Hh0 : 0 < h) by apply Ro.
  pose proof (wf_rs_pos _ _ Wo) as Hrs. pose proof (roi_rows_small m out xo yo w h Wo Ro) as Hsm.
  (* the address read is the one of some sample of the row *)
  assert (Hcell : forall j i, 0 <= j < h -> 0 <= i < w * icc out ->
    padd (origin inp xi yi 1) (j * irs inp + i) = px inp ((xi + i) / icc inp) (yi + j) ((xi + i) mod icc inp) /\
    0 <= (xi + i) / icc inp < iw inp /\ 0 <= (xi + i) mod icc inp < icc inp).
  { intros j i Hj Hi. rewrite C. destruct R1.
    pose proof (Z.div_mod (xi + i) (icc out)). pose proof (Z.mod_pos_bound (xi + i) (icc out)).
    split; [|split; [|lia]].
    - unfold padd, origin, px, padd. cbn [fst snd]. f_equal. rewrite C. lia.
    - split; [apply Z.div_pos; lia|]. apply Z.div_lt_upper_bound; nia. }
  destruct (conv_rows_ok n cnt tail step f P m (origin inp xi yi 1) (origin out xo yo (icc out)) (irs inp) (irs out) h)
    as (m' & He & Hl & Hf & Hv); auto; try lia; rewrite ?Hsum.
  - intros j i (Hj & Hi). destruct (Hcell j i Hj Hi) as (Ea & Hx & Hm). rewrite Ea.
    assert (Hr : roi_in inp 0 0 (iw inp) (ih inp)) by (pose proof (wf_w _ _ W1); pose proof (wf_h _ _ W1); constructor; lia).
    split; [|split].
    + apply (px_inb m inp 0 0 (iw inp) (ih inp) ((xi + i) / icc inp) (yi + j) _ W1 Hr). destruct R1. unfold inside. lia.
    + apply (cell_inb m out xo yo w h); auto.
    + apply HP; auto. destruct R1. lia.
  - intros j i j' i' (Hj & Hi) (Hj' & Hi'). apply (cell_inj m out xo yo w h); auto.
  - intros j i j' i' _ _ Heq. exfalso. apply Hne.
    apply (f_equal fst) in Heq. unfold padd, origin, padd in Heq. cbn [fst] in Heq. congruence.
  - destruct (@writes_of_samples mem (Ok m') m out xo yo w h
      (fun j i => f (get m (padd (origin inp xi yi 1) (j * irs inp + i)))) Wo) as (m'' & E'' & V'' & F'').
    + exists m'. split; [reflexivity|]. split; [exact Hl|]. split.
      * intros q Hq. apply Hf. intros j i (Hj & Hi). apply Hq; lia.
      * intros j i Hj Hi. apply Hv. lia.
    + injection E'' as <-. exists m'. split; [exact He|]. split; [|exact F''].
      intros i j c Hin. rewrite V'' by assumption. reflexivity.
Qed.

(** The scalar loop is the row loop without packets. *)
Lemma scalar_conv (n : nat) step f m inY outY rsi rso W h :
  0 < W -> 0 <= h -> 0 < rso -> h * rso < W32 ->
  walk h [outY; inY] [rso; rsi] (padd outY (u32 (h * rso)))
    (fun cs m => walk W cs [1; 1] (padd (c0 cs) W) (fun cs m => do a <- load m (c1 cs); @store mem m (c0 cs) (f a)) m) m
  = conv_rows (Z.of_nat n) 0 (0 * Z.of_nat n) W step f m inY outY rsi rso h.
Proof.
  intros HW Hh Hr Hs. unfold conv_rows. rewrite !walk_rows by (auto; lia).
  apply iterM_ext. intros j t Hj. unfold at_, c0, c1. cbn [combine map nth fst snd].
  rewrite Z.mul_0_l. rewrite walk_zero. cbn [bind]. rewrite !padd_padd, !Z.add_0_r.
  apply Z.ltb_lt in HW. rewrite HW. reflexivity.
Qed.

Definition conv_value (f : Z -> Z) (m : mem) (inp : image) (xi yi cc i j c : Z) : Z :=
  f (get m (padd (origin inp xi yi 1) (j * irs inp + (i * cc + c)))).

Lemma conv_kernel_offset t x86 arm f (P : Z -> Prop) m inp xi yi out xo yo w h :
  (t = neon /\ conv_step 8 arm f P) \/ (t = sse /\ conv_step 16 (x86 1%nat) f P) ->
  wf m inp -> wf m out -> icc inp = icc out ->
  roi_in inp xi yi w h -> roi_in out xo yo w h -> fst (ibase inp) <> fst (ibase out) ->
  (forall x y c, 0 <= x < iw inp -> 0 <= y < ih inp -> 0 <= c < icc inp -> P (pixel m inp x y c)) ->
  writes (conv_kernel t x86 arm f m (row_ptr inp xi yi 1) (row_ptr out xo yo (icc inp)) (irs inp) (irs out)
            (u32 (w * icc inp)) h) m out xo yo w h (conv_value f m inp xi yi (icc out)).
Proof.
  intros Ht W1 Wo C R1 Ro Hne HP.
  pose proof (wf_cc_pos _ _ Wo) as Hcc.
  assert (Hw0 : 0 < w) by apply Ro. assert (Hh0 : 0 < h) by apply Ro.
  rewrite (row_ptr_origin m inp xi yi w h) by (auto; lia).
  rewrite (row_ptr_origin m out xo yo w h) by (auto; lia).
  rewrite C. rewrite (u32_width m out xo w) by (auto; first [apply Ro|lia]).
  pose proof (wf_bounds _ _ Wo) as (Bw & _ & _ & Bwc).
  assert (HW : 0 < w * icc out < W32) by (destruct Ro; nia).
  unfold conv_kernel. destruct Ht as [[-> Hst]|[-> Hst]].
  - change (getSimdSize neon) with 16.
    destruct (simd_widths (w * icc out) 16) as (ET & EN & _ & Hq & Hr & Ew); [lia|lia|].
    rewrite ET, EN.
    replace (w * icc out / 16 * 16 / 8) with (w * icc out / 16 * 2) by (generalize (w * icc out / 16); intros; lia).
    replace (w * icc out / 16 * 16) with (w * icc out / 16 * 2 * Z.of_nat 8) by lia.
    apply (conv_gen 8%nat _ _ _ f P); auto; lia.
  - change (getSimdSize sse) with 16. change (nlanes sse) with 1%nat.
    destruct (simd_widths (w * icc out) 16) as (ET & EN & ES & Hq & Hr & Ew); [lia|lia|].
    rewrite ET, EN, ES. apply (conv_gen 16%nat _ _ _ f P); auto; lia.
Qed.

Lemma scalar_offset (n : nat) step f (P : Z -> Prop) m inp xi yi out xo yo w h :
  (0 < n)%nat -> conv_step n step f P ->
  wf m inp -> wf m out -> icc inp = icc out ->
  roi_in inp xi yi w h -> roi_in out xo yo w h -> fst (ibase inp) <> fst (ibase out) ->
  (forall x y c, 0 <= x < iw inp -> 0 <= y < ih inp -> 0 <= c < icc inp -> P (pixel m inp x y c)) ->
  let outY := row_ptr out xo yo (icc inp) in
  let W := u32 (w * icc inp) in
  writes (walk h [outY; row_ptr inp xi yi 1] [irs out; irs inp] (padd outY (u32 (h * irs out)))
    (fun cs m => walk W cs [1; 1] (padd (c0 cs) W) (fun cs m => do a <- load m (c1 cs); @store mem m (c0 cs) (f a)) m) m)
    m out xo yo w h (conv_value f m inp xi yi (icc out)).
Proof.
  intros Hn Hst W1 Wo C R1 Ro Hne HP outY W. subst outY W.
  pose proof (wf_cc_pos _ _ Wo) as Hcc.
  assert (Hw0 : 0 < w) by apply Ro. assert (Hh0 : 0 < h) by apply Ro.
  rewrite (row_ptr_origin m inp xi yi w h) by (auto; lia).
  rewrite (row_ptr_origin m out xo yo w h) by (auto; lia).
  rewrite C. rewrite (u32_width m out xo w) by (auto; first [apply Ro|lia]).
  rewrite (scalar_conv n step).
  - apply (conv_gen n _ _ _ f P); auto; nia.
  - nia.
  - lia.
  - apply (wf_rs_pos _ _ Wo).
  - apply (roi_rows_small m out xo yo w h); assumption.
Qed.

Lemma SimdConvertTo16Bit_offset b t m inp xi yi out xo yo w h :
  t = cpu \/ t = neon -> usable b t ->
  wf m inp -> wf m out -> icc inp = icc out ->
  roi_in inp xi yi w h -> roi_in out xo yo w h -> fst (ibase inp) <> fst (ibase out) -> bytes m inp ->
  let v := conv_value (fun a => u16 (Z.shiftl a 8)) m inp xi yi (icc out) in
  writes (SimdConvertTo16Bit b t m inp xi yi out xo yo w h) m out xo yo w h v /\
  writes (ConvertTo16Bit m inp xi yi out xo yo w h) m out xo yo w h v.
Proof.
  intros Ht Hu W1 Wo C R1 Ro Hne B v.
  assert (Hs : writes (ConvertTo16Bit m inp xi yi out xo yo w h) m out xo yo w h v).
  { unfold ConvertTo16Bit. rewrite !(valid_roi_ok m) by assumption.
    assert (Ec : icc inp =? icc out = true) by (apply Z.eqb_eq; exact C). rewrite Ec.
    apply (scalar_offset 8 to16_neon (fun a => u16 (Z.shiftl a 8)) byte); auto; [lia|apply to16_neon_step]. }
  split; [|exact Hs]. unfold SimdConvertTo16Bit.
  destruct (is_cpu t || (w <? getSimdSize t)) eqn:E1; [exact Hs|].
  destruct Ht as [->| ->]; [discriminate E1|]. destruct Hu as [Hu|Hu]; [discriminate|]. rewrite Hu.
  rewrite !(valid_roi_ok m) by assumption.
  assert (Ec : icc inp =? icc out = true) by (apply Z.eqb_eq; exact C). rewrite Ec.
  apply (conv_kernel_offset neon to16_x86 to16_neon (fun a => u16 (Z.shiftl a 8)) byte); auto.
  left. split; [reflexivity|apply to16_neon_step].
Qed.

Lemma SimdConvertTo8Bit_offset b t m inp xi yi out xo yo w h :
  t = cpu \/ t = neon \/ t = sse -> usable b t ->
  wf m inp -> wf m out -> icc inp = icc out ->
  roi_in inp xi yi w h -> roi_in out xo yo w h -> fst (ibase inp) <> fst (ibase out) ->
  (forall x y c, 0 <= x < iw inp -> 0 <= y < ih inp -> 0 <= c < icc inp -> word (pixel m inp x y c)) ->
  let v := conv_value (fun a => u8 (Z.shiftr a 8)) m inp xi yi (icc out) in
  writes (SimdConvertTo8Bit b t m inp xi yi out xo yo w h) m out xo yo w h v /\
  writes (ConvertTo8Bit m inp xi yi out xo yo w h) m out xo yo w h v.
Proof.
  intros Ht Hu W1 Wo C R1 Ro Hne B v.
  assert (Hs : writes (ConvertTo8Bit m inp xi yi out xo yo w h) m out xo yo w h v).
  { unfold ConvertTo8Bit. rewrite !(valid_roi_ok m) by assumption.
    assert (Ec : icc inp =? icc out = true) by (apply Z.eqb_eq; exact C). rewrite Ec.
    apply (scalar_offset 8 to8_neon (fun a => u8 (Z.shiftr a 8)) word); auto; [lia|apply to8_neon_step]. }
  split; [|exact Hs]. unfold SimdConvertTo8Bit.
  destruct (is_cpu t || (w <? getSimdSize t)) eqn:E1; [exact Hs|].
  rewrite !(valid_roi_ok m) by assumption.
  assert (Ec : icc inp =? icc out = true) by (apply Z.eqb_eq; exact C). rewrite Ec.
  assert (Hn : t <> cpu) by (intros ->; discriminate E1).
  destruct Hu as [Hu|Hu]; [congruence|]. rewrite Hu.
  apply (conv_kernel_offset t to8_x86 to8_neon (fun a => u8 (Z.shiftr a 8)) word); auto.
  destruct Ht as [->|[->| ->]]; [congruence| |].
  - left. split; [reflexivity|apply to8_neon_step].
  - right. split; [reflexivity|apply to8_sse_step].
Qed.
