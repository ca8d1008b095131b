(** Proofs about the vectorised bit depth conversions, ConvertToRgb, Flip and RgbToBgr. *)
From Coq Require Import ZArith List Bool Lia.
From Verif Require Import Base Image Spec BaseProofs ImgFun ImgLemmas ImgProofs ConvProofs ReduceProofs Simd StepProofs SimdProofs SimdProofs1 SimdProofs2.
Import ListNotations.
Open Scope Z_scope.

Ltac Zify.zify_post_hook ::= Z.div_mod_to_equations.

(** ** Steps *)

Lemma step_ok_same {E} (prog : mem -> res E mem) m srcs srcs' W W' :
  (forall p, In p srcs -> In p srcs') -> (forall x, In x W <-> In x W') ->
  step_ok prog m srcs W -> step_ok prog m srcs' W'.
Proof.
  intros Hs HW H t Hl Hg. destruct (H t Hl) as (t' & A & B & C & D); [auto|].
  exists t'. split; [exact A|]. split; [exact B|]. split.
  - intros q Hq. apply C. intros Hin. apply Hq. apply in_map_iff in Hin as (x & <- & Hx). apply in_map, HW, Hx.
  - intros p v Hin. apply D, HW, Hin.
Qed.

Lemma step_ok_ext {E} (prog prog' : mem -> res E mem) m srcs W :
  (forall t, prog t = prog' t) -> step_ok prog m srcs W -> step_ok prog' m srcs W.
Proof. intros He H t Hl Hg. destruct (H t Hl Hg) as (t' & A & B). exists t'. rewrite <- He. auto. Qed.

(** Load [n] elements, store the elements of [F] of them *)
Lemma load_store_step (F : list Z -> reg) m pa s n pd s' n' (V : Z -> Z) :
  (forall i, s <= i < s + Z.of_nat n -> inb m (padd pa i) = true) ->
  (forall i, s' <= i < s' + Z.of_nat n' -> inb m (padd pd i) = true) ->
  concat (F (map (fun i => get m (padd pa i)) (zseq s n))) = map V (zseq s' n') ->
  @step_ok mem (fun t => bind (loads t (span (padd pa s) n)) (fun l => storeu t (padd pd s') (F l))) m
    (map (padd pa) (zseq s n)) (map (fun i => (padd pd i, V i)) (zseq s' n')).
Proof.
  intros Ha Hd Hc t Hl Hs. rewrite span_from, loads_ok.
  - cbn [bind]. apply (storeu_step t pd s' n' V).
    + intros i Hi. rewrite (same_len_inb m t) by assumption. auto.
    + rewrite map_map. rewrite <- Hc. do 2 f_equal. apply map_ext_in. intros i Hi. apply Hs. apply in_map; assumption.
  - intros q Hq. apply in_map_iff in Hq as (i & <- & Hi). apply zseq_In in Hi.
    rewrite (same_len_inb m t) by assumption. auto.
Qed.

Lemma loadu_unfold k m p (K : reg -> res mem mem) :
  bind (loadu k m p) K = bind (loads m (span p (k * 16))) (fun l => K (lanes k 16 l)).
Proof. unfold loadu. rewrite bind_assoc. reflexivity. Qed.

Lemma span_app p a : forall b, span p (a + b) = span p a ++ span (padd p (Z.of_nat a)) b.
Proof.
  revert p. induction a as [|a IH]; intros p b; cbn [Nat.add span app].
  - rewrite padd_0. reflexivity.
  - rewrite IH. do 3 f_equal. rewrite padd_padd. f_equal. lia.
Qed.

Lemma storeu_app m p r1 r2 (n : Z) : Z.of_nat (length (concat r1)) = n ->
  bind (storeu m p r1) (fun m => storeu m (padd p n) r2) = storeu m p (r1 ++ r2).
Proof.
  intros <-. unfold storeu. rewrite concat_app, app_length, span_app, stores_app by apply span_length.
  reflexivity.
Qed.

Lemma loads_app {E} ps qs m : @loads E m (ps ++ qs) = bind (loads m ps) (fun a => bind (loads m qs) (fun b => Ok (a ++ b))).
Proof.
  induction ps as [|p ps IH]; cbn [app loads].
  - cbn [bind]. rewrite bind_ok_r. reflexivity.
  - rewrite IH, !bind_assoc. apply bind_ext. intros v _. rewrite !bind_assoc. apply bind_ext. intros a _.
    cbn [bind]. rewrite bind_assoc. apply bind_ext. intros b _. reflexivity.
Qed.

Lemma moves_step m l :
  (forall p, In p (map fst l) -> inb m p = true) -> (forall p, In p (map snd l) -> inb m p = true) ->
  NoDup (map fst l) -> (forall p, In p (map fst l) -> In p (map snd l) -> False) ->
  @step_ok mem (fun t => moves t l) m (map snd l) (map (fun x => (fst x, get m (snd x))) l).
Proof.
  intros Hd Hs Hn Hdis t Hl Hg. rewrite moves_gstep_sep by assumption. unfold gstep.
  rewrite loads_ok by (intros p Hp; rewrite (same_len_inb m t) by assumption; auto).
  cbn [bind].
  assert (E1 : map fst l = map fst (map (fun x : ptr * ptr => (fst x, get m (snd x))) l)) by (rewrite map_map; reflexivity).
  assert (E2 : map (get t) (map snd l) = map snd (map (fun x : ptr * ptr => (fst x, get m (snd x))) l)).
  { rewrite !map_map. apply map_ext_in. intros x Hx. cbn [snd]. apply Hg. apply in_map. assumption. }
  rewrite E2.
  replace (stores t (map fst l)) with (@stores mem t (map fst (map (fun x : ptr * ptr => (fst x, get m (snd x))) l)))
    by (rewrite <- E1; reflexivity).
  apply stores_pairs; rewrite <- E1; auto.
  intros p Hp. rewrite (same_len_inb m t) by assumption. auto.
Qed.

(** ** Rows with one input and one output element per unit *)

Lemma units1 (h cnt tl n : nat) (a d : Z -> Z -> ptr) (v : Z -> Z -> Z) (packet single : Z -> Z -> mem -> res mem mem) m :
  let U := Z.of_nat (cnt * n + tl) in
  let N := Z.of_nat n in
  let ok j i := 0 <= j < Z.of_nat h /\ 0 <= i < U in
  (forall j q, 0 <= j < Z.of_nat h -> 0 <= q < Z.of_nat cnt ->
     step_ok (packet j q) m (map (a j) (zseq (q * N) n)) (map (fun i => (d j i, v j i)) (zseq (q * N) n))) ->
  (forall j k, 0 <= j < Z.of_nat h -> 0 <= k < Z.of_nat tl ->
     step_ok (single j k) m [a j (Z.of_nat cnt * N + k)] [(d j (Z.of_nat cnt * N + k), v j (Z.of_nat cnt * N + k))]) ->
  (forall j i j' i', ok j i -> ok j' i' -> d j i = d j' i' -> j = j' /\ i = i') ->
  (forall j i j' i', ok j i -> ok j' i' -> d j i = a j' i' -> j = j' /\ i = i') ->
  exists m', iterM h 0 (fun j t => bind (iterM cnt 0 (packet j) t) (iterM tl 0 (single j))) m = Ok m' /\
    same_len m m' /\
    (forall q, (forall j i, ok j i -> q <> d j i) -> get m' q = get m q) /\
    (forall j i, ok j i -> get m' (d j i) = v j i).
Proof.
  intros U N ok Hp Hs Hi Hh.
  destruct (@units_rows mem h cnt tl n (fun j i => [a j i]) (fun j i => [(d j i, v j i)]) (fun _ _ => []) packet single m)
    as (m' & A & B & C & D).
  - intros j q Hj Hq. rewrite app_nil_r, !flat_map_single. apply Hp; assumption.
  - exact Hs.
  - intros j i j' i' p H1 H2 [<-|[]] [He|[]]. symmetry in He. apply Hi; assumption.
  - intros j i j' i' p H1 H2 [<-|[]] [He|[]]. symmetry in He. apply Hh; assumption.
  - intros j q p _ _ [].
  - exists m'. split; [exact A|]. split; [exact B|]. split.
    + intros q Hq. apply C. intros j i Hok [He|[]]. apply (Hq j i Hok). symmetry. exact He.
    + intros j i Hok. apply (D j i); [exact Hok|simpl; auto].
Qed.

(** ** Bit depth conversions *)

(** A packet of [n] elements applies [f] to elements satisfying [P]. *)
Definition conv_step (n : nat) (step : mem -> ptr -> ptr -> res mem mem) (f : Z -> Z) (P : Z -> Prop) : Prop :=
  forall m pa pd s,
  (forall i, s <= i < s + Z.of_nat n -> inb m (padd pa i) = true /\ inb m (padd pd i) = true /\ P (get m (padd pa i))) ->
  step_ok (fun t => step t (padd pa s) (padd pd s)) m (map (padd pa) (zseq s n))
    (map (fun i => (padd pd i, f (get m (padd pa i)))) (zseq s n)).

Lemma map_padd p r s n : map (padd (padd p r)) (zseq s n) = map (fun i => padd p (r + i)) (zseq s n).
Proof. apply map_ext. intros i. apply padd_padd. Qed.

Lemma conv_rows_ok (n : nat) cnt tail step f (P : Z -> Prop) m inY outY rsi rso h :
  (0 < n)%nat -> conv_step n step f P ->
  0 <= cnt -> 0 <= tail -> 0 <= h -> 0 < rso -> h * rso < W32 ->
  let ok j i := 0 <= j < h /\ 0 <= i < cnt * Z.of_nat n + tail in
  let a j i := padd inY (j * rsi + i) in
  let d j i := padd outY (j * rso + i) in
  (forall j i, ok j i -> inb m (a j i) = true /\ inb m (d j i) = true /\ P (get m (a j i))) ->
  (forall j i j' i', ok j i -> ok j' i' -> d j i = d j' i' -> j = j' /\ i = i') ->
  (forall j i j' i', ok j i -> ok j' i' -> d j i = a j' i' -> j = j' /\ i = i') ->
  exists m', conv_rows (Z.of_nat n) cnt (cnt * Z.of_nat n) tail step f m inY outY rsi rso h = Ok m' /\ same_len m m' /\
    (forall q, (forall j i, ok j i -> q <> d j i) -> get m' q = get m q) /\
    (forall j i, ok j i -> get m' (d j i) = f (get m (a j i))).
Proof.
  intros Hn Hst Hcnt Htl Hh Hrso Hsm ok a d Hcell Hinj Hhaz.
  set (N := Z.of_nat n) in *.
  set (packet := fun j q (t : mem) => step t (padd (padd inY (j * rsi)) (q * N)) (padd (padd outY (j * rso)) (q * N))).
  set (single := fun j i (t : mem) =>
         bind (load t (a j (cnt * N + i))) (fun x => @store mem t (d j (cnt * N + i)) (f x))).
  assert (Hrun : conv_rows N cnt (cnt * N) tail step f m inY outY rsi rso h
     = iterM (Z.to_nat h) 0 (fun j t => bind (iterM (Z.to_nat cnt) 0 (packet j) t) (iterM (Z.to_nat tail) 0 (single j))) m).
  { unfold conv_rows. rewrite walk_rows by (auto; lia).
    apply iterM_ext. intros j t Hj. unfold at_, c0, c1. cbn [combine map nth fst snd].
    rewrite (walk_iterM cnt) by (try reflexivity; subst N; lia).
    apply bind_ext. intros t' _.
    rewrite if_tail.
    - rewrite (walk_iterM tail) by (rewrite ?Z.mul_1_r; try reflexivity; lia).
      unfold at_. cbn [combine map nth fst snd].
      apply iterM_ext. intros i u Hi. unfold single, a, d. rewrite !padd_padd.
      rewrite !Z.mul_1_r, ?Z.add_assoc. reflexivity.
    - lia.
    - intros H0. rewrite H0. apply walk_zero. }
  destruct (units1 (Z.to_nat h) (Z.to_nat cnt) (Z.to_nat tail) n a d (fun j i => f (get m (a j i))) packet single m)
    as (m' & He & Hl & Hf & Hv).
  - intros j q Hj Hq. fold N.
    assert (Hrange : forall i, q * N <= i < q * N + Z.of_nat n -> ok j i).
    { intros i Hi. unfold ok. split; [lia|]. subst N. nia. }
    specialize (Hst m (padd inY (j * rsi)) (padd outY (j * rso)) (q * N)).
    rewrite map_padd in Hst.
    assert (Hmap : map (fun i => (padd (padd outY (j * rso)) i, f (get m (padd (padd inY (j * rsi)) i)))) (zseq (q * N) n)
               = map (fun i => (d j i, f (get m (a j i)))) (zseq (q * N) n)).
    { apply map_ext. intros i. rewrite !padd_padd. reflexivity. }
    rewrite Hmap in Hst. apply Hst. intros i Hi. rewrite !padd_padd. apply (Hcell j i). apply Hrange. exact Hi.
  - intros j i Hj Hi. replace (Z.of_nat (Z.to_nat cnt) * Z.of_nat n) with (cnt * N) by (subst N; lia).
    assert (ok j (cnt * N + i)) by (unfold ok; subst N; nia).
    destruct (Hcell j (cnt * N + i)) as (A1 & A2 & A3); auto.
    apply (single1_ok f); auto.
  - intros j i j' i' (Hj & Hi) (Hj' & Hi'). apply Hinj; unfold ok; subst N; lia.
  - intros j i j' i' (Hj & Hi) (Hj' & Hi'). apply Hhaz; unfold ok; subst N; lia.
  - exists m'. split; [rewrite Hrun; exact He|]. split; [exact Hl|].
    assert (HU : forall j i, ok j i <-> 0 <= j < Z.of_nat (Z.to_nat h) /\ 0 <= i < Z.of_nat (Z.to_nat cnt * n + Z.to_nat tail)).
    { intros j i. unfold ok. subst N. lia. }
    split.
    + intros q Hq'. apply Hf. intros j i Hok. apply HU in Hok. apply (Hq' j i Hok).
    + intros j i Hok. apply (Hv j i). apply HU; auto.
Qed.

Ltac split8 l :=
  do 8 (let x := fresh "x" in destruct l as [|x l]; [discriminate|]);
  destruct l; [|discriminate].

Lemma conv_step_load (F : list Z -> reg) n step f (P : Z -> Prop) :
  (forall t p q, step t p q = bind (loads t (span p n)) (fun l => storeu t q (F l))) ->
  (forall l, length l = n -> (forall x, In x l -> P x) -> concat (F l) = map f l) ->
  conv_step n step f P.
Proof.
  intros He HF m pa pd s H.
  apply (step_ok_ext (fun t => bind (loads t (span (padd pa s) n)) (fun l => storeu t (padd pd s) (F l)))).
  - intros t. symmetry. apply He.
  - apply load_store_step.
    + intros i Hi. apply H; assumption.
    + intros i Hi. apply H; assumption.
    + rewrite HF.
      * rewrite map_map. reflexivity.
      * rewrite map_length. apply zseq_length.
      * intros x Hx. apply in_map_iff in Hx as (i & <- & Hi). apply zseq_In in Hi. apply H; assumption.
Qed.

Lemma to16_neon_step : conv_step 8 to16_neon (fun a => u16 (Z.shiftl a 8)) byte.
Proof.
  apply (conv_step_load (fun l => [vshll_n_u8_8 l])); [reflexivity|].
  intros l Hl Hb. cbn [concat]. rewrite app_nil_r. unfold vshll_n_u8_8. apply map_ext_in. intros x Hx.
  specialize (Hb x Hx). unfold byte in Hb. rewrite Z.shiftl_mul_pow2 by lia. change (2 ^ 8) with 256.
  rewrite u16_small' by lia. reflexivity.
Qed.

Definition word (x : Z) : Prop := 0 <= x < 65536.

Lemma shr8 x : word x -> u8 (Z.shiftr x 8) = x / 256.
Proof.
  intros Hx. unfold word in Hx. rewrite Z.shiftr_div_pow2 by lia. change (2 ^ 8) with 256. unfold u8.
  apply Z.mod_small. lia.
Qed.

Lemma to8_neon_step : conv_step 8 to8_neon (fun a => u8 (Z.shiftr a 8)) word.
Proof.
  apply (conv_step_load (fun l => [vshrn_n_u16_8 l])); [reflexivity|].
  intros l Hl Hb. cbn [concat]. rewrite app_nil_r. unfold vshrn_n_u16_8. apply map_ext_in. intros x Hx.
  specialize (Hb x Hx). rewrite shr8 by assumption. rewrite Z.shiftr_div_pow2 by lia. reflexivity.
Qed.

Lemma sat_high x : word x -> sat_u8 (x / 256) = x / 256.
Proof.
  unfold word, sat_u8, s16. intros Hx.
  destruct (Z.ltb_spec (x / 256) 32768); [|lia].
  destruct (Z.ltb_spec (x / 256) 0); [lia|]. destruct (Z.ltb_spec 255 (x / 256)); [lia|reflexivity].
Qed.

Lemma to8_sse_step : conv_step 16 (to8_x86 1) (fun a => u8 (Z.shiftr a 8)) word.
Proof.
  apply (conv_step_load (fun l => packus_epi16 (srli_epi16_8 (lanes 1 8 (firstn 8 l))) (srli_epi16_8 (lanes 1 8 (skipn 8 l))))).
  - intros t p q. unfold to8_x86. change (1 * 8)%nat with 8%nat. change (8 * Z.of_nat 1) with (Z.of_nat 8).
    change 16%nat with (8 + 8)%nat. rewrite span_app, loads_app, !bind_assoc. apply bind_ext. intros a Ha.
    apply loads_length in Ha. rewrite span_length in Ha.
    rewrite bind_assoc. apply bind_ext. intros b _. cbn [bind].
    rewrite firstn_app, Ha, Nat.sub_diag, firstn_O, app_nil_r, firstn_all2 by lia.
    rewrite skipn_app, Ha, Nat.sub_diag, skipn_O, skipn_all2 by lia. reflexivity.
  - intros l Hl Hb.
    rewrite (map_ext_in (fun a => u8 (Z.shiftr a 8)) (fun a => sat_u8 (a / 256)))
      by (intros x Hx; specialize (Hb x Hx); rewrite shr8, sat_high by assumption; reflexivity).
    split16 l. reflexivity.
Qed.

(** What the two conversions write on a compiled instruction set *)
Lemma conv_kernel_writes t x86 arm f (P : Z -> Prop) m inp xi yi out xo yo w h :
  (t = neon /\ conv_step 8 arm f P) \/ (t = sse /\ conv_step 16 (x86 1%nat) f P) ->
  wf m inp -> wf m out -> icc inp = icc out ->
  roi_in inp xi yi w h -> roi_in out xo yo w h ->
  xi = 0 \/ icc inp = 1 -> no_hazard out xo yo inp xi yi w h ->
  (forall i j c, inside w h (icc inp) i j c -> P (pixel m inp (xi + i) (yi + j) c)) ->
  writes (conv_kernel t x86 arm f m (row_ptr inp xi yi 1) (row_ptr out xo yo (icc inp)) (irs inp) (irs out)
            (u32 (w * icc inp)) h) m out xo yo w h
    (fun i j c => f (pixel m inp (xi + i) (yi + j) c)).
Proof.
  intros Ht W1 Wo C R1 Ro Hx Z1 HP.
  pose proof (wf_cc_pos _ _ Wo) as Hcc.
  assert (Hw0 : 0 < w) by apply Ro. assert (Hh0 : 0 < h) by apply Ro.
  rewrite (row_ptr_origin m inp xi yi w h) by (auto; lia).
  rewrite (row_ptr_origin m out xo yo w h) by (auto; lia).
  assert (Eo : origin inp xi yi 1 = origin inp xi yi (icc inp)).
  { unfold origin. destruct Hx as [->| ->]; f_equal; lia. }
  rewrite Eo, C. rewrite (u32_width m out xo w) by (auto; first [apply Ro|lia]).
  pose proof (wf_rs_pos _ _ Wo) as Hrs. pose proof (roi_rows_small m out xo yo w h Wo Ro) as Hsm.
  pose proof (wf_bounds _ _ Wo) as (Bw & _ & _ & Bwc).
  assert (HW : 0 < w * icc out < W32) by (destruct Ro; nia).
  assert (Hgen : forall (n : nat) cnt tail step, (0 < n)%nat -> conv_step n step f P -> 0 <= cnt -> 0 <= tail ->
     cnt * Z.of_nat n + tail = w * icc out ->
     writes (conv_rows (Z.of_nat n) cnt (cnt * Z.of_nat n) tail step f m (origin inp xi yi (icc out)) (origin out xo yo (icc out))
       (irs inp) (irs out) h) m out xo yo w h (fun i j c => f (pixel m inp (xi + i) (yi + j) c))).
  { intros n cnt tail step Hn Hst Hc Ht' Hsum.
    destruct (conv_rows_ok n cnt tail step f P m (origin inp xi yi (icc out)) (origin out xo yo (icc out)) (irs inp) (irs out) h)
      as (m' & He & Hl & Hf & Hv); auto; try lia; rewrite ?Hsum.
    - intros j i (Hj & Hi). split; [rewrite <- C; apply (cell_inb m inp xi yi w h); auto; rewrite C; auto|].
      split; [apply (cell_inb m out xo yo w h); auto|].
      destruct (split_index (icc out) i w) as (A & B & D); try lia.
      pose proof (HP (i / icc out) j (i mod icc out)) as Hb. unfold pixel in Hb.
      rewrite px_origin, C, <- D in Hb. apply Hb. unfold inside. lia.
    - intros j i j' i' (Hj & Hi) (Hj' & Hi'). apply (cell_inj m out xo yo w h); auto.
    - intros j i j' i' (Hj & Hi) (Hj' & Hi') Heq.
      apply (hazard_samples out xo yo inp xi yi w h); auto; try lia; rewrite C; auto.
    - destruct (@writes_of_samples mem (Ok m') m out xo yo w h
        (fun j i => f (get m (padd (origin inp xi yi (icc out)) (j * irs inp + i)))) Wo) as (m'' & E'' & V'' & F'').
      + exists m'. split; [reflexivity|]. split; [exact Hl|]. split.
        * intros q Hq. apply Hf. intros j i (Hj & Hi). apply Hq; lia.
        * intros j i Hj Hi. apply Hv. lia.
      + injection E'' as <-. exists m'. split; [exact He|]. split; [|exact F''].
        intros i j c Hin. rewrite V'' by assumption. unfold pixel. rewrite px_origin, C. reflexivity. }
  unfold conv_kernel. destruct Ht as [[-> Hst]|[-> Hst]].
  - change (getSimdSize neon) with 16.
    destruct (simd_widths (w * icc out) 16) as (ET & EN & _ & Hq & Hr & Ew); [lia|lia|].
    rewrite ET, EN.
    replace (w * icc out / 16 * 16 / 8) with (w * icc out / 16 * 2) by (generalize (w * icc out / 16); intros; lia).
    replace (w * icc out / 16 * 16) with (w * icc out / 16 * 2 * Z.of_nat 8) by lia.
    apply (Hgen 8%nat); auto; lia.
  - change (getSimdSize sse) with 16. change (nlanes sse) with 1%nat.
    destruct (simd_widths (w * icc out) 16) as (ET & EN & ES & Hq & Hr & Ew); [lia|lia|].
    rewrite ET, EN, ES. apply (Hgen 16%nat); auto; lia.
Qed.

Lemma SimdConvertTo16Bit_writes b t m inp xi yi out xo yo w h :
  t = cpu \/ t = neon -> usable b t ->
  wf m inp -> wf m out -> icc inp = icc out ->
  roi_in inp xi yi w h -> roi_in out xo yo w h -> bytes m inp ->
  xi = 0 \/ icc inp = 1 -> no_hazard out xo yo inp xi yi w h ->
  writes (SimdConvertTo16Bit b t m inp xi yi out xo yo w h) m out xo yo w h
    (fun i j c => u16 (Z.shiftl (pixel m inp (xi + i) (yi + j) c) 8)).
Proof.
  intros Ht Hu W1 Wo C R1 Ro B Hx Z1. unfold SimdConvertTo16Bit.
  destruct (is_cpu t || (w <? getSimdSize t)) eqn:E1; [apply ConvertTo16Bit_writes; assumption|].
  destruct Ht as [->| ->]; [discriminate E1|]. destruct Hu as [Hu|Hu]; [discriminate|]. rewrite Hu.
  rewrite !(valid_roi_ok m) by assumption. rewrite <- C, Z.eqb_refl.
  apply (conv_kernel_writes neon to16_x86 to16_neon (fun a => u16 (Z.shiftl a 8)) byte); auto.
  - left. split; [reflexivity|apply to16_neon_step].
  - intros i j c (Hi & Hj & Hc). unfold byte. destruct R1. apply B; lia.
Qed.

Lemma SimdConvertTo8Bit_writes b t m inp xi yi out xo yo w h :
  t = cpu \/ t = neon \/ t = sse -> usable b t ->
  wf m inp -> wf m out -> icc inp = icc out ->
  roi_in inp xi yi w h -> roi_in out xo yo w h ->
  (forall i j c, inside w h (icc inp) i j c -> word (pixel m inp (xi + i) (yi + j) c)) ->
  xi = 0 \/ icc inp = 1 -> no_hazard out xo yo inp xi yi w h ->
  writes (SimdConvertTo8Bit b t m inp xi yi out xo yo w h) m out xo yo w h
    (fun i j c => u8 (Z.shiftr (pixel m inp (xi + i) (yi + j) c) 8)).
Proof.
  intros Ht Hu W1 Wo C R1 Ro B Hx Z1. unfold SimdConvertTo8Bit.
  destruct (is_cpu t || (w <? getSimdSize t)) eqn:E1; [apply ConvertTo8Bit_writes; assumption|].
  rewrite !(valid_roi_ok m) by assumption. rewrite <- C, Z.eqb_refl.
  assert (Hn : t <> cpu) by (intros ->; discriminate E1).
  destruct Hu as [Hu|Hu]; [congruence|]. rewrite Hu.
  apply (conv_kernel_writes t to8_x86 to8_neon (fun a => u8 (Z.shiftr a 8)) word); auto.
  destruct Ht as [->|[->| ->]]; [congruence| |].
  - left. split; [reflexivity|apply to8_neon_step].
  - right. split; [reflexivity|apply to8_sse_step].
Qed.

Lemma SimdConvert_rejects b t m inp xi yi out xo yo w h :
  valid_roi inp xi yi w h && valid_roi out xo yo w h && (icc inp =? icc out) = false ->
  SimdConvertTo16Bit b t m inp xi yi out xo yo w h = Throw m /\
  SimdConvertTo8Bit b t m inp xi yi out xo yo w h = Throw m.
Proof.
  intros Hg. unfold SimdConvertTo16Bit, SimdConvertTo8Bit, ConvertTo16Bit, ConvertTo8Bit.
  destruct (valid_roi inp xi yi w h); cbn [andb] in *; [|split; destruct (is_cpu t || _); reflexivity].
  destruct (valid_roi out xo yo w h); cbn [andb] in *; [|split; destruct (is_cpu t || _); reflexivity].
  rewrite Hg. split; destruct (is_cpu t || _); reflexivity.
Qed.

(** ** ConvertToRgb *)

Definition triple (p : ptr) (v : Z -> Z) (i : Z) : list (ptr * Z) :=
  [(padd p (3 * i), v (3 * i)); (padd p (3 * i + 1), v (3 * i + 1)); (padd p (3 * i + 2), v (3 * i + 2))].

Lemma triples p v n : forall s,
  flat_map (triple p v) (zseq s n) = map (fun k => (padd p k, v k)) (zseq (3 * s) (3 * n)).
Proof.
  induction n as [|n IH]; intros s; [reflexivity|].
  replace (3 * S n)%nat with (S (S (S (3 * n)))) by lia.
  cbn [zseq flat_map map]. rewrite IH. unfold triple. cbn [app].
  replace (3 * s + 1 + 1) with (3 * s + 2) by lia. replace (3 * s + 2 + 1) with (3 * (s + 1)) by lia. reflexivity.
Qed.

(** A packet of [n] gray pixels gives [3 n] bytes *)
Definition rgb_step (n : nat) (step : mem -> ptr -> ptr -> res mem mem) : Prop :=
  forall m pa pd s,
  (forall i, s <= i < s + Z.of_nat n -> inb m (padd pa i) = true) ->
  (forall i, 3 * s <= i < 3 * s + 3 * Z.of_nat n -> inb m (padd pd i) = true) ->
  step_ok (fun t => step t (padd pa s) (padd pd (3 * s))) m (map (padd pa) (zseq s n))
    (map (fun k => (padd pd k, get m (padd pa (k / 3)))) (zseq (3 * s) (3 * n))).

Lemma rgb_values (F : list Z -> reg) (g : Z -> Z) n s :
  (forall l, length l = n -> concat (F l) = flat_map (fun x => [x; x; x]) l) ->
  concat (F (map g (zseq s n))) = map (fun k => g (k / 3)) (zseq (3 * s) (3 * n)).
Proof.
  intros HF. rewrite HF by (rewrite map_length; apply zseq_length). clear HF F. revert s.
  induction n as [|n IH]; intros s; [reflexivity|].
  replace (3 * S n)%nat with (S (S (S (3 * n)))) by lia.
  cbn [zseq map flat_map app]. rewrite IH.
  replace (3 * s / 3) with s by lia. replace ((3 * s + 1) / 3) with s by lia.
  replace ((3 * s + 1 + 1) / 3) with s by lia. replace (3 * s + 1 + 1 + 1) with (3 * (s + 1)) by lia. reflexivity.
Qed.

Lemma rgb_step_load (F : list Z -> reg) n step :
  (forall t p q, step t p q = bind (loads t (span p n)) (fun l => storeu t q (F l))) ->
  (forall l, length l = n -> concat (F l) = flat_map (fun x => [x; x; x]) l) ->
  rgb_step n step.
Proof.
  intros He HF m pa pd s Ha Hd.
  apply (step_ok_ext (fun t => bind (loads t (span (padd pa s) n)) (fun l => storeu t (padd pd (3 * s)) (F l)))).
  - intros t. symmetry. apply He.
  - apply load_store_step; auto.
    + intros i Hi. apply Hd. lia.
    + apply (rgb_values F (fun i => get m (padd pa i))). exact HF.
Qed.

Lemma rgb_sse_step : rgb_step 16 rgb_sse.
Proof.
  apply (rgb_step_load (fun l => let d := lanes 1 16 l in
     shuffle_epi8 d [nth 0 rgb_ctrl []] ++ shuffle_epi8 d [nth 1 rgb_ctrl []] ++ shuffle_epi8 d [nth 2 rgb_ctrl []])).
  - intros t p q. unfold rgb_sse. rewrite loadu_unfold. change (1 * 16)%nat with 16%nat.
    apply bind_ext. intros l Hl. cbv zeta.
    rewrite <- (storeu_app t q _ _ 16) by reflexivity.
    apply bind_ext. intros t1 _. rewrite <- (storeu_app t1 (padd q 16) _ _ 16) by reflexivity.
    rewrite padd_padd. reflexivity.
  - intros l Hl. split16 l. reflexivity.
Qed.

Lemma rgb_neon_step : rgb_step 8 rgb_neon.
Proof.
  apply (rgb_step_load (fun d => [vtbl1_u8 d (nth 0 rgb_ctrl8 [])] ++ [vtbl1_u8 d (nth 1 rgb_ctrl8 [])] ++ [vtbl1_u8 d (nth 2 rgb_ctrl8 [])])).
  - intros t p q. unfold rgb_neon.
    apply bind_ext. intros l Hl.
    rewrite <- (storeu_app t q _ _ 8) by reflexivity.
    apply bind_ext. intros t1 _. rewrite <- (storeu_app t1 (padd q 8) _ _ 8) by reflexivity.
    rewrite padd_padd. reflexivity.
  - intros l Hl. split8 l. reflexivity.
Qed.

Lemma memset3_step (m : mem) pa pd :
  inb m pa = true -> (forall i, 0 <= i < 3 -> inb m (padd pd i) = true) ->
  @step_ok mem (fun t => bind (load t pa) (fun a => memset t pd a 3)) m [pa]
    [(padd pd 0, get m pa); (padd pd 1, get m pa); (padd pd 2, get m pa)].
Proof.
  intros Ha Hd t Hl Hs.
  rewrite load_ok by (rewrite (same_len_inb m t) by assumption; assumption). cbn [bind].
  rewrite (Hs pa) by (simpl; auto).
  change (@memset mem t pd (get m pa) 3) with
    (@stores mem t [pd; padd pd 1; padd (padd pd 1) 1] (map snd [(padd pd 0, get m pa); (padd pd 1, get m pa); (padd pd 2, get m pa)])).
  rewrite padd_padd. change (1 + 1) with 2.
  replace [pd; padd pd 1; padd pd 2] with (map fst [(padd pd 0, get m pa); (padd pd 1, get m pa); (padd pd 2, get m pa)])
    by (cbn [map fst]; rewrite padd_0; reflexivity).
  apply stores_pairs.
  - intros p Hp. rewrite (same_len_inb m t) by assumption.
    destruct Hp as [<-|[<-|[<-|[]]]]; apply Hd; lia.
  - cbn [map fst]. repeat constructor; cbn [In]; intros Hin;
      repeat match goal with H : _ \/ _ |- _ => destruct H | H : padd _ _ = padd _ _ |- _ => apply padd_inj in H; lia end; auto.
Qed.

Lemma In_triple p v i q x : In (q, x) (triple p v i) <-> exists c, 0 <= c < 3 /\ q = padd p (3 * i + c) /\ x = v (3 * i + c).
Proof.
  unfold triple. cbn [In]. split.
  - intros [H|[H|[H|[]]]]; injection H as <- <-; [exists 0|exists 1|exists 2]; rewrite ?Z.add_0_r; repeat split; lia || reflexivity.
  - intros (c & Hc & -> & ->). assert (c = 0 \/ c = 1 \/ c = 2) as [->|[->| ->]] by lia; rewrite ?Z.add_0_r; auto.
Qed.

Lemma In_triple_fst p v i q : In q (map fst (triple p v i)) <-> exists c, 0 <= c < 3 /\ q = padd p (3 * i + c).
Proof.
  rewrite in_map_iff. split.
  - intros ((q' & x) & <- & H). apply In_triple in H as (c & Hc & -> & _). exists c. auto.
  - intros (c & Hc & ->). exists (padd p (3 * i + c), v (3 * i + c)). split; [reflexivity|]. apply In_triple. exists c. auto.
Qed.

Lemma rgb_rows_ok (n : nat) step m inY outY rsi rso w h :
  (0 < n)%nat -> rgb_step n step -> 0 <= w -> 3 * w < W32 -> 0 <= h -> 0 < rso -> h * rso < W32 ->
  (forall j i, 0 <= j < h -> 0 <= i < w -> inb m (padd inY (j * rsi + i)) = true) ->
  (forall j i, 0 <= j < h -> 0 <= i < 3 * w -> inb m (padd outY (j * rso + i)) = true) ->
  (forall j i j' i', 0 <= j < h -> 0 <= i < 3 * w -> 0 <= j' < h -> 0 <= i' < 3 * w ->
     padd outY (j * rso + i) = padd outY (j' * rso + i') -> j = j' /\ i = i') ->
  (forall j i j' i', 0 <= j < h -> 0 <= i < 3 * w -> 0 <= j' < h -> 0 <= i' < w ->
     padd outY (j * rso + i) <> padd inY (j' * rsi + i')) ->
  exists m', rgb_rows (Z.of_nat n) step m inY outY rsi rso w h = Ok m' /\ same_len m m' /\
    (forall q, (forall j i, 0 <= j < h -> 0 <= i < 3 * w -> q <> padd outY (j * rso + i)) -> get m' q = get m q) /\
    (forall j i, 0 <= j < h -> 0 <= i < 3 * w -> get m' (padd outY (j * rso + i)) = get m (padd inY (j * rsi + i / 3))).
Proof.
  intros Hn Hst Hw Hw3 Hh Hrso Hsm Ha Hd Hinj Hdis.
  set (N := Z.of_nat n) in *.
  destruct (simd_widths w N) as (ET & EN & ES & Hq & Hr & Ew); [lia|subst N; lia|].
  set (cnt := Z.to_nat (w / N)). set (tl := Z.to_nat (w mod N)).
  set (oj := fun j => padd outY (j * rso)). set (ij := fun j => padd inY (j * rsi)).
  set (packet := fun j q (t : mem) => step t (padd (ij j) (q * N)) (padd (oj j) (3 * (q * N)))).
  set (single := fun j i (t : mem) =>
         bind (load t (padd (ij j) (w / N * N + i))) (fun x => @memset mem t (padd (oj j) (3 * (w / N * N + i))) x 3)).
  assert (Hrun : rgb_rows N step m inY outY rsi rso w h
     = iterM (Z.to_nat h) 0 (fun j t => bind (iterM cnt 0 (packet j) t) (iterM tl 0 (single j))) m).
  { unfold rgb_rows. rewrite ET, EN, ES. rewrite walk_rows by (auto; lia).
    apply iterM_ext. intros j t Hj. unfold at_, c0, c1. cbn [combine map nth fst snd].
    rewrite (walk_iterM (w / N)) by (try reflexivity; subst N; lia).
    replace (iterM (Z.to_nat (w / N)) 0 _ t) with (iterM cnt 0 (packet j) t).
    2:{ apply iterM_ext. intros q u _. unfold packet, at_, oj, ij. cbn [combine map nth fst snd].
        do 2 f_equal. lia. }
    apply bind_ext. intros t' _.
    rewrite if_tail.
    - rewrite (walk_iterM (w mod N)) by (rewrite ?Z.mul_1_r; try reflexivity; lia).
      rewrite u32_small by lia.
      apply iterM_ext. intros i u Hi. unfold single, oj, ij, at_. cbn [combine map nth fst snd]. rewrite !padd_padd.
      rewrite !Z.mul_1_r, <- ?Z.add_assoc.
      replace (3 * (w / N * N + i)) with (w / N * N * 3 + i * 3) by lia. reflexivity.
    - lia.
    - intros H0. rewrite H0. apply walk_zero. }
  assert (HU : forall j i, 0 <= j < h /\ 0 <= i < w <-> 0 <= j < Z.of_nat (Z.to_nat h) /\ 0 <= i < Z.of_nat (cnt * n + tl)).
  { intros j i. subst cnt tl N. lia. }
  set (v := fun j k => get m (padd (ij j) (k / 3))).
  destruct (@units_rows mem (Z.to_nat h) cnt tl n (fun j i => [padd (ij j) i]) (fun j i => triple (oj j) (v j) i)
              (fun _ _ => []) packet single m) as (m' & He & Hl & Hf & Hv).
  - intros j q Hj Hq'. rewrite app_nil_r, flat_map_single, triples.
    assert (Hrange : q * N + N <= w) by (subst cnt N; nia).
    apply Hst.
    + intros i Hi. unfold ij. rewrite padd_padd. apply Ha; subst N; nia.
    + intros i Hi. unfold oj. rewrite padd_padd. apply Hd; subst N; nia.
  - intros j i Hj Hi. replace (Z.of_nat cnt * Z.of_nat n) with (w / N * N) by (subst N cnt; lia).
    set (u := w / N * N + i). assert (Hu : 0 <= u < w) by (subst u tl; lia).
    pose proof (memset3_step m (padd (ij j) u) (padd (oj j) (3 * u))) as Hm.
    unfold triple. unfold v. rewrite !padd_padd in Hm.
    replace (3 * u / 3) with u by lia. replace ((3 * u + 1) / 3) with u by lia. replace ((3 * u + 2) / 3) with u by lia.
    rewrite Z.add_0_r in Hm. apply Hm.
    + unfold ij. rewrite padd_padd. apply Ha; lia.
    + intros k Hk. unfold oj. rewrite !padd_padd. rewrite <- ?Z.add_assoc. apply Hd; lia.
  - intros j i j' i' p H1 H2 P1 P2. apply HU in H1, H2.
    apply In_triple_fst in P1 as (c & Hc & ->). apply In_triple_fst in P2 as (c' & Hc' & Heq).
    unfold oj in Heq. rewrite !padd_padd in Heq. apply Hinj in Heq; lia.
  - intros j i j' i' p H1 H2 P1 [<-|[]]. apply HU in H1, H2. exfalso.
    apply In_triple_fst in P1 as (c & Hc & Heq).
    unfold oj, ij in Heq. rewrite !padd_padd in Heq. symmetry in Heq. revert Heq. apply Hdis; lia.
  - intros j q p _ _ [].
  - exists m'. split; [rewrite Hrun; exact He|]. split; [exact Hl|]. split.
    + intros q Hq'. apply Hf. intros j i Hok Hin. apply HU in Hok.
      apply In_triple_fst in Hin as (c & Hc & ->). unfold oj in Hq'. apply (Hq' j (3 * i + c)); try lia.
      unfold oj. rewrite padd_padd. reflexivity.
    + intros j i Hj Hi. specialize (Hv j (i / 3) (padd outY (j * rso + i)) (v j i)).
      rewrite Hv.
      * unfold v, ij. rewrite padd_padd. reflexivity.
      * apply HU. lia.
      * apply In_triple. exists (i mod 3). split; [lia|].
        replace (3 * (i / 3) + i mod 3) with i by lia. unfold oj. rewrite padd_padd. auto.
Qed.

Lemma SimdConvertToRgb_writes b t m inp xi yi out xo yo w h :
  usable b t -> build_ok b = true -> b_neon b = true \/ b_ssse3 b = true \/ t = cpu \/ t = avx512 ->
  wf m inp -> wf m out -> icc inp = 1 -> icc out = 3 ->
  roi_in inp xi yi w h -> roi_in out xo yo w h ->
  disjoint out xo yo w h inp xi yi w h ->
  writes (SimdConvertToRgb b t m inp xi yi out xo yo w h) m out xo yo w h
    (fun i j c => pixel m inp (xi + i) (yi + j) 0).
Proof.
  intros Hu Hb Hs W1 Wo C Co R1 Ro D.
  assert (Hw0 : 0 < w) by apply Ro. assert (Hh0 : 0 < h) by apply Ro.
  assert (Hsc : writes (ConvertToRgb m inp xi yi out xo yo w h) m out xo yo w h
    (fun i j c => pixel m inp (xi + i) (yi + j) 0)) by (apply ConvertToRgb_writes; assumption).
  assert (Hker : forall n step, (0 < n)%nat -> rgb_step n step ->
    writes (rgb_rows (Z.of_nat n) step m (row_ptr inp xi yi 1) (row_ptr out xo yo RGB) (irs inp) (irs out) w h) m out xo yo w h
      (fun i j c => pixel m inp (xi + i) (yi + j) 0)).
  { intros n step Hn Hst. unfold RGB.
    rewrite (row_ptr_origin m inp xi yi w h) by (auto; lia).
    rewrite (row_ptr_origin m out xo yo w h) by (auto; lia).
    pose proof (wf_rs_pos _ _ Wo) as Hrs. pose proof (roi_rows_small m out xo yo w h Wo Ro) as Hsm.
    pose proof (wf_bounds _ _ Wo) as (Bw & _ & _ & Bwc).
    destruct (rgb_rows_ok n step m (origin inp xi yi 1) (origin out xo yo 3) (irs inp) (irs out) w h)
      as (m' & He & Hl & Hf & Hv); auto; try lia.
    - destruct Ro; nia.
    - intros j i Hj Hi. rewrite <- C. apply (cell_inb m inp xi yi w h); auto. lia.
    - intros j i Hj Hi. rewrite <- Co. apply (cell_inb m out xo yo w h); auto. lia.
    - intros j i j' i' Hj Hi Hj' Hi' Heq. rewrite <- Co in Heq. apply (cell_inj m out xo yo w h) in Heq; auto; lia.
    - intros j i j' i' Hj Hi Hj' Hi'.
      replace (origin inp xi yi 1) with (origin inp xi yi (icc inp)) by (rewrite C; reflexivity).
      replace (origin out xo yo 3) with (origin out xo yo (icc out)) by (rewrite Co; reflexivity).
      apply (disjoint_samples out xo yo w h inp xi yi w h); auto; lia.
    - replace (origin inp xi yi 1) with (origin inp xi yi (icc inp)) in * by (rewrite C; reflexivity).
      replace (origin out xo yo 3) with (origin out xo yo (icc out)) in * by (rewrite Co; reflexivity).
      destruct (@writes_of_samples mem (Ok m') m out xo yo w h
        (fun j i => get m (padd (origin inp xi yi (icc inp)) (j * irs inp + i / icc out))) Wo) as (m'' & E'' & V'' & F'').
      + exists m'. split; [reflexivity|]. split; [exact Hl|]. split.
        * intros q Hq. apply Hf. intros j i Hj Hi. apply Hq; lia.
        * intros j i Hj Hi. rewrite Hv by lia. rewrite Co. reflexivity.
      + injection E'' as <-. exists m'. split; [exact He|]. split; [|exact F''].
        intros i j c Hin. rewrite V'' by assumption. unfold pixel. rewrite px_origin.
        destruct Hin as (_ & _ & Hc). rewrite Co in *.
        replace ((i * 3 + c) / 3) with i by lia. rewrite C. do 2 f_equal. lia. }
  unfold SimdConvertToRgb, twice.
  assert (Hva : valid_roi2 inp xi yi out xo yo w h = true).
  { unfold valid_roi2. rewrite !(valid_roi_ok m) by assumption. reflexivity. }
  rewrite Hva, rgb_true by assumption.
  assert (HC : icc inp =? RGB = false) by (unfold RGB; rewrite C; reflexivity). rewrite HC.
  assert (Hsse : compiled b sse = true -> b_neon b = true \/ b_ssse3 b = true -> compiled_ssse3 b sse = true).
  { cbn [compiled compiled_ssse3]. intros Hc [H1|H1]; rewrite Hc; [|exact H1]. exfalso.
    unfold build_ok in Hb. rewrite H1, Hc in Hb. cbn [andb orb negb] in Hb. discriminate Hb. }
  destruct (is_cpu t || is_avx t || is_avx512 t || (w <? size8 t)) eqn:E1.
  - destruct (is_avx t && b_avx b) eqn:E2; [|exact Hsc].
    apply andb_true_iff in E2 as [Et Eb].
    destruct (is_cpu sse || is_avx sse || is_avx512 sse || (w <? size8 sse)) eqn:E3; [exact Hsc|].
    rewrite Hsse; [apply (Hker 16%nat); [lia|apply rgb_sse_step]|apply avx_sse; assumption|].
    destruct Hs as [Hs|[Hs|[-> | ->]]]; auto; discriminate Et.
  - destruct t; cbn [is_cpu is_avx is_avx512 orb] in E1; try discriminate E1.
    + destruct Hu as [Hu|Hu]; [discriminate|].
      rewrite Hsse; [apply (Hker 16%nat); [lia|apply rgb_sse_step]|assumption|].
      destruct Hs as [Hs|[Hs|[Hs|Hs]]]; auto; discriminate Hs.
    + destruct Hu as [Hu|Hu]; [discriminate|]. cbn [compiled] in Hu. cbn [compiled_ssse3]. rewrite Hu.
      apply (Hker 8%nat); [lia|apply rgb_neon_step].
Qed.

(** ** Flip *)

(** A packet of [n] pixels is stored backwards. *)
Definition flip_step (n : nat) (step : mem -> ptr -> ptr -> res mem mem) : Prop :=
  forall m pa s pd e,
  (forall i, s <= i < s + Z.of_nat n -> inb m (padd pa i) = true) ->
  (forall i, e <= i < e + Z.of_nat n -> inb m (padd pd i) = true) ->
  step_ok (fun t => step t (padd pa s) (padd pd e)) m (map (padd pa) (zseq s n))
    (map (fun k => (padd pd k, get m (padd pa (s + Z.of_nat n - 1 - (k - e))))) (zseq e n)).

Lemma rev_zseq (g : Z -> Z) n s e :
  rev (map g (zseq s n)) = map (fun k => g (s + Z.of_nat n - 1 - (k - e))) (zseq e n).
Proof.
  apply (nth_ext _ _ 0 0).
  - rewrite rev_length, !map_length, !zseq_length. reflexivity.
  - intros k Hk. rewrite rev_length, map_length, zseq_length in Hk.
    rewrite rev_nth by (rewrite map_length, zseq_length; lia). rewrite map_length, zseq_length.
    rewrite (nth_indep _ 0 (g 0)) by (rewrite map_length, zseq_length; lia). rewrite map_nth, zseq_nth by lia.
    set (G := fun k => g (s + Z.of_nat n - 1 - (k - e))).
    rewrite (nth_indep _ 0 (G 0)) by (rewrite map_length, zseq_length; lia). rewrite map_nth, zseq_nth by lia.
    unfold G. f_equal. lia.
Qed.

Lemma flip_step_load (F : list Z -> reg) n step :
  (forall t p q, step t p q = bind (loads t (span p n)) (fun l => storeu t q (F l))) ->
  (forall l, length l = n -> concat (F l) = rev l) ->
  flip_step n step.
Proof.
  intros He HF m pa s pd e Ha Hd.
  apply (step_ok_ext (fun t => bind (loads t (span (padd pa s) n)) (fun l => storeu t (padd pd e) (F l)))).
  - intros t. symmetry. apply He.
  - apply load_store_step; auto.
    rewrite HF by (rewrite map_length; apply zseq_length).
    apply (rev_zseq (fun i => get m (padd pa i))).
Qed.

Lemma flip_sse_step : flip_step 16 flip_sse.
Proof.
  apply (flip_step_load (fun l => shuffle_epi8 (lanes 1 16 l) [[15; 14; 13; 12; 11; 10; 9; 8; 7; 6; 5; 4; 3; 2; 1; 0]])).
  - intros t p q. unfold flip_sse. rewrite loadu_unfold. reflexivity.
  - intros l Hl. split16 l. reflexivity.
Qed.

Lemma flip_neon_step : flip_step 8 flip_neon.
Proof.
  apply (flip_step_load (fun l => [vrev64_u8 l])).
  - reflexivity.
  - intros l Hl. cbn [concat]. apply app_nil_r.
Qed.

Lemma flip_rows_ok (n : nat) step m inY outE rsi rso w h :
  (0 < n)%nat -> flip_step n step -> 0 <= w < W32 -> 0 <= h -> 0 < rsi -> h * rsi < W32 ->
  let ok j i := 0 <= j < h /\ 0 <= i < w in
  let a j i := padd inY (j * rsi + i) in
  let d j i := padd outE (j * rso - i) in
  (forall j i, ok j i -> inb m (a j i) = true /\ inb m (d j i) = true) ->
  (forall j i j' i', ok j i -> ok j' i' -> d j i = d j' i' -> j = j' /\ i = i') ->
  (forall j i j' i', ok j i -> ok j' i' -> d j i <> a j' i') ->
  exists m', flip_rows (Z.of_nat n) step m inY outE rsi rso w h = Ok m' /\ same_len m m' /\
    (forall q, (forall j i, ok j i -> q <> d j i) -> get m' q = get m q) /\
    (forall j i, ok j i -> get m' (d j i) = get m (a j i)).
Proof.
  intros Hn Hst Hw Hh Hrsi Hsm ok a d Hcell Hinj Hdis.
  set (N := Z.of_nat n) in *.
  destruct (simd_widths w N) as (ET & EN & ES & Hq & Hr & Ew); [lia|subst N; lia|].
  set (cnt := Z.to_nat (w / N)). set (tl := Z.to_nat (w mod N)).
  set (packet := fun j q (t : mem) => step t (padd (padd inY (j * rsi)) (q * N)) (padd outE (j * rso - (q * N) + (1 - N)))).
  set (single := fun j i (t : mem) =>
         bind (load t (a j (w / N * N + i))) (fun x => @store mem t (d j (w / N * N + i)) x)).
  assert (Hrun : flip_rows N step m inY outE rsi rso w h
     = iterM (Z.to_nat h) 0 (fun j t => bind (iterM cnt 0 (packet j) t) (iterM tl 0 (single j))) m).
  { unfold flip_rows. rewrite ET, EN, ES. rewrite walk_rows by (auto; lia).
    apply iterM_ext. intros j t Hj. unfold at_, c0, c1, c2. cbn [combine map nth fst snd].
    rewrite (walk_iterM (w / N)) by (try reflexivity; subst N; lia).
    replace (iterM (Z.to_nat (w / N)) 0 _ t) with (iterM cnt 0 (packet j) t).
    2:{ apply iterM_ext. intros q u _. unfold packet, at_. cbn [combine map nth fst snd]. rewrite !padd_padd.
        do 2 f_equal. lia. }
    apply bind_ext. intros t' _.
    rewrite if_tail.
    - rewrite (walk_iterM (w mod N)) by (rewrite ?Z.mul_1_r; try reflexivity; lia).
      apply iterM_ext. intros i u Hi. unfold single, a, d, at_. cbn [combine map nth fst snd]. rewrite !padd_padd.
      rewrite !Z.mul_1_r, <- ?Z.add_assoc.
      replace (j * rso - (w / N * N + i)) with (j * rso + (- (w / N * N) + i * -1)) by lia. reflexivity.
    - lia.
    - intros H0. rewrite H0. apply walk_zero. }
  assert (HU : forall j i, ok j i <-> 0 <= j < Z.of_nat (Z.to_nat h) /\ 0 <= i < Z.of_nat (cnt * n + tl)).
  { intros j i. unfold ok. subst cnt tl N. lia. }
  destruct (units1 (Z.to_nat h) cnt tl n a d (fun j i => get m (a j i)) packet single m)
    as (m' & He & Hl & Hf & Hv).
  - intros j q Hj Hq'. fold N.
    assert (Hrange : forall i, q * N <= i < q * N + N -> ok j i).
    { intros i Hi. unfold ok. split; [lia|]. subst cnt N. nia. }
    set (e := j * rso - q * N + (1 - N)).
    pose proof (Hst m (padd inY (j * rsi)) (q * N) outE e) as H1. fold N in H1.
    eapply step_ok_same; [| |apply H1].
    + intros p Hp. rewrite map_padd in Hp. exact Hp.
    + intros [p x]. rewrite !in_map_iff. split.
      * intros (k & Hk & Hin). apply zseq_In in Hin. injection Hk as <- <-.
        exists (q * N + N - 1 - (k - e)). split; [|apply zseq_In; subst e N; lia].
        unfold d, a. rewrite padd_padd. f_equal. f_equal. subst e. lia.
      * intros (i & Hi & Hin). apply zseq_In in Hin. injection Hi as <- <-.
        exists (e + (q * N + N - 1 - i)). split; [|apply zseq_In; subst e N; lia].
        unfold d, a. rewrite padd_padd. f_equal; [f_equal; subst e; lia|]. do 3 f_equal. lia.
    + intros i Hi. rewrite padd_padd. apply (Hcell j i). apply Hrange. subst N. lia.
    + intros i Hi. replace i with (j * rso - (j * rso - i)) by lia.
      apply (Hcell j (j * rso - i)). apply Hrange. subst e N. lia.
  - intros j i Hj Hi. replace (Z.of_nat cnt * Z.of_nat n) with (w / N * N) by (subst cnt N; lia).
    assert (ok j (w / N * N + i)) by (unfold ok; subst tl; lia).
    destruct (Hcell j (w / N * N + i)) as (A1 & A2); auto.
    apply (single1_ok (fun x => x)); auto.
  - intros j i j' i' H1 H2. apply HU in H1, H2. apply Hinj; assumption.
  - intros j i j' i' H1 H2 Heq. apply HU in H1, H2. exfalso. revert Heq. apply Hdis; assumption.
  - exists m'. split; [rewrite Hrun; exact He|]. split; [exact Hl|]. split.
    + intros q Hq'. apply Hf. intros j i Hok. apply HU in Hok. apply (Hq' j i Hok).
    + intros j i Hok. apply (Hv j i). apply HU; auto.
Qed.

Lemma SimdFlip_writes b t m inp xi yi out xo yo w h hor ver :
  usable b t -> build_ok b = true -> b_neon b = true \/ b_ssse3 b = true \/ t = cpu \/ t = avx512 ->
  wf m inp -> wf m out -> icc inp = 1 -> icc out = 1 ->
  roi_in inp xi yi w h -> roi_in out xo yo w h ->
  disjoint out xo yo w h inp xi yi w h ->
  writes (SimdFlip b t m inp xi yi out xo yo w h hor ver) m out xo yo w h
    (fun i j c => pixel m inp (xi + (if hor then w - 1 - i else i)) (yi + (if ver then h - 1 - j else j)) c).
Proof.
  intros Hu Hb Hs W1 Wo C Co R1 Ro D.
  assert (Hw0 : 0 < w) by apply Ro. assert (Hh0 : 0 < h) by apply Ro.
  assert (Hsc : writes (Flip m inp xi yi out xo yo w h hor ver) m out xo yo w h
    (fun i j c => pixel m inp (xi + (if hor then w - 1 - i else i)) (yi + (if ver then h - 1 - j else j)) c))
    by (apply Flip_writes; assumption).
  pose proof (wf_rs_pos _ _ Wo) as Hrs. pose proof (roi_rows_small m out xo yo w h Wo Ro) as Hsm.
  pose proof (wf_rs_pos _ _ W1) as Hrs1. pose proof (roi_rows_small m inp xi yi w h W1 R1) as Hsm1.
  pose proof (wf_bounds _ _ Wo) as (Bw & Bh & _ & Bwc). pose proof (wf_size _ _ Wo) as Bsz.
  assert (Hker : forall n step outE rso, (0 < n)%nat -> flip_step n step ->
    (forall j i, 0 <= j < h -> 0 <= i < w ->
       padd outE (j * rso - i) = padd (origin out xo yo 1) ((if ver then h - 1 - j else j) * irs out + (w - 1 - i))) ->
    hor = true ->
    writes (flip_rows (Z.of_nat n) step m (row_ptr inp xi yi 1) outE (irs inp) rso w h) m out xo yo w h
      (fun i j c => pixel m inp (xi + (if hor then w - 1 - i else i)) (yi + (if ver then h - 1 - j else j)) c)).
  { intros n step outE rso Hn Hst Hpos ->.
    rewrite (row_ptr_origin m inp xi yi w h) by (auto; lia).
    set (vj := fun j => if ver then h - 1 - j else j).
    assert (Hvj : forall j, 0 <= j < h -> 0 <= vj j < h) by (intros j Hj; unfold vj; destruct ver; lia).
    assert (Hvv : forall j, vj (vj j) = j) by (intros j; unfold vj; destruct ver; lia).
    replace (origin inp xi yi 1) with (origin inp xi yi (icc inp)) by (rewrite C; reflexivity).
    replace (origin out xo yo 1) with (origin out xo yo (icc out)) in * by (rewrite Co; reflexivity).
    destruct (flip_rows_ok n step m (origin inp xi yi (icc inp)) outE (irs inp) rso w h)
      as (m' & He & Hl & Hf & Hv); auto; try lia.
    - destruct Ro; nia.
    - intros j i (Hj & Hi). split; [apply (cell_inb m inp xi yi w h); auto; lia|].
      rewrite Hpos by assumption. apply (cell_inb m out xo yo w h); auto; try lia; apply Hvj; assumption.
    - intros j i j' i' (Hj & Hi) (Hj' & Hi') Heq. rewrite !Hpos in Heq by assumption.
      apply (cell_inj m out xo yo w h) in Heq as [A1 A2]; auto; try lia.
      split; [|lia]. rewrite <- (Hvv j), <- (Hvv j'). f_equal. exact A1.
    - intros j i j' i' (Hj & Hi) (Hj' & Hi'). rewrite Hpos by assumption.
      apply (disjoint_samples out xo yo w h inp xi yi w h); auto; try lia. apply Hvj; assumption.
    - destruct (@writes_of_samples mem (Ok m') m out xo yo w h
        (fun j i => get m (padd (origin inp xi yi (icc inp)) (vj j * irs inp + (w - 1 - i)))) Wo) as (m'' & E'' & V'' & F'').
      + exists m'. split; [reflexivity|]. split; [exact Hl|]. split.
        * intros q Hq. apply Hf. intros j i (Hj & Hi). rewrite Hpos by assumption. apply Hq; [apply Hvj; assumption|lia].
        * intros j i Hj Hi. rewrite Co, Z.mul_1_r in Hi.
          specialize (Hv (vj j) (w - 1 - i) ltac:(split; [apply Hvj; assumption|lia])).
          rewrite Hpos in Hv by (auto; lia). fold (vj (vj j)) in Hv. rewrite Hvv in Hv.
          replace (w - 1 - (w - 1 - i)) with i in Hv by lia. exact Hv.
      + injection E'' as <-. exists m'. split; [exact He|]. split; [|exact F''].
        intros i j c Hin. rewrite V'' by assumption. unfold pixel. rewrite px_origin.
        destruct Hin as (_ & _ & Hc). rewrite Co in Hc. rewrite C, Co.
        fold (vj j). do 2 f_equal. lia. }
  unfold SimdFlip, twice.
  assert (Hva : valid_roi2 inp xi yi out xo yo w h = true).
  { unfold valid_roi2. rewrite !(valid_roi_ok m) by assumption. reflexivity. }
  rewrite Hva, !gray_true by assumption. cbn [andb].
  assert (Hcopy : hor = false -> ver = false -> writes (Copy m inp xi yi out xo yo w h) m out xo yo w h
     (fun i j c => pixel m inp (xi + (if hor then w - 1 - i else i)) (yi + (if ver then h - 1 - j else j)) c)).
  { intros -> ->. apply Copy_writes; auto. congruence. }
  assert (Hall : forall n step, (0 < n)%nat -> flip_step n step -> negb hor && ver = false ->
    writes (if negb hor && negb ver then Copy m inp xi yi out xo yo w h
      else if hor && negb ver then
          flip_rows (Z.of_nat n) step m (row_ptr inp xi yi 1) (padd (row_ptr out xo yo 1) (w - 1)) (irs inp) (irs out) w h
        else
          flip_rows (Z.of_nat n) step m (row_ptr inp xi yi 1)
            (padd (padd (padd (dataptr out) (u32 (u32 (yo + h - 1) * irs out))) xo) (w - 1))
            (irs inp) (- irs out) w h) m out xo yo w h
      (fun i j c => pixel m inp (xi + (if hor then w - 1 - i else i)) (yi + (if ver then h - 1 - j else j)) c)).
  { intros n step Hn Hst Hhv.
    destruct hor; cbn [negb andb] in *.
    - destruct ver; cbn [negb].
      + apply Hker; auto. intros j i Hj Hi.
        assert (Hy : 0 <= yo + h - 1 < W32) by (destruct Ro; lia).
        rewrite (u32_small (yo + h - 1)) by assumption.
        rewrite u32_small by (destruct Ro; nia).
        replace (dataptr out) with (ibase out).
        2:{ unfold dataptr, ibase. destruct (idata out) eqn:E; auto. destruct (wf_data _ _ Wo E). }
        unfold origin. rewrite !padd_padd. f_equal. ring.
      + apply Hker; auto. intros j i Hj Hi. rewrite (row_ptr_origin m out xo yo w h) by (auto; lia).
        rewrite padd_padd. f_equal. lia.
    - destruct ver; [discriminate|]. cbn [negb]. apply Hcopy; reflexivity. }
  assert (Hsse : compiled b sse = true -> b_neon b = true \/ b_ssse3 b = true -> compiled_ssse3 b sse = true).
  { cbn [compiled compiled_ssse3]. intros Hc [H1|H1]; rewrite Hc; [|exact H1]. exfalso.
    unfold build_ok in Hb. rewrite H1, Hc in Hb. cbn [andb orb negb] in Hb. discriminate Hb. }
  destruct (is_cpu t || is_avx t || is_avx512 t || (w <? size8 t) || (negb hor && ver)) eqn:E1.
  - destruct (is_avx t && b_avx b) eqn:E2; [|exact Hsc].
    apply andb_true_iff in E2 as [Et Eb].
    destruct (is_cpu sse || is_avx sse || is_avx512 sse || (w <? size8 sse) || (negb hor && ver)) eqn:E3; [exact Hsc|].
    apply orb_false_iff in E3 as [_ E3].
    rewrite Hsse; [apply (Hall 16%nat); [lia|apply flip_sse_step|exact E3]|apply avx_sse; assumption|].
    destruct Hs as [Hs|[Hs|[-> | ->]]]; auto; discriminate Et.
  - apply orb_false_iff in E1 as [E1 E3].
    destruct t; cbn [is_cpu is_avx is_avx512 orb] in E1; try discriminate E1.
    + destruct Hu as [Hu|Hu]; [discriminate|].
      rewrite Hsse; [apply (Hall 16%nat); [lia|apply flip_sse_step|exact E3]|assumption|].
      destruct Hs as [Hs|[Hs|[Hs|Hs]]]; auto; discriminate Hs.
    + destruct Hu as [Hu|Hu]; [discriminate|]. cbn [compiled] in Hu. cbn [compiled_ssse3]. rewrite Hu.
      apply (Hall 8%nat); [lia|apply flip_neon_step|exact E3].
Qed.
