(** Lemmas about the function pool model: region splitting and race freedom. *)
From Coq Require Import ZArith List Bool Lia Arith.
From Verif Require Import Base Image Spec BaseProofs ImgFun ImgLemmas FuncPool.
Import ListNotations.
Open Scope Z_scope.

Ltac Zify.zify_post_hook ::= Z.div_mod_to_equations.

(** ** Splitting one axis *)

(** The sizes and starts without machine arithmetic. *)
Fixpoint cuts (count : nat) (q r a : Z) : list (Z * Z) :=
  match count with
  | O => []
  | S k => let n := if 0 <? r then q + 1 else q in
           (a, n) :: cuts k q (if 0 <? r then r - 1 else r) (a + n)
  end.

Lemma fill_axis_cuts k : forall q r a, 0 <= q -> 0 <= r -> 0 <= a ->
  a + Z.of_nat k * q + r < W32 -> r <= Z.of_nat k -> fill_axis k q r a = cuts k q r a.
Proof.
  induction k as [|k IH]; intros q r a Hq Hr Ha Hb Hk; [reflexivity|].
  cbn [fill_axis cuts]. pose proof W32_val. destruct (Z.ltb_spec 0 r).
  - rewrite (u32_small (q + 1)) by nia. rewrite (u32_small (a + (q + 1))) by nia.
    f_equal. apply IH; nia.
  - rewrite (u32_small (a + q)) by nia. f_equal. apply IH; nia.
Qed.

(** Consecutive non-empty intervals from [a] to [b]. *)
Inductive chain : Z -> list (Z * Z) -> Z -> Prop :=
| chain_nil a : chain a [] a
| chain_cons a n l b : 0 < n -> chain (a + n) l b -> chain a ((a, n) :: l) b.

Lemma cuts_chain k : forall q r a, 0 < q -> 0 <= r <= Z.of_nat k ->
  chain a (cuts k q r a) (a + Z.of_nat k * q + r).
Proof.
  induction k as [|k IH]; intros q r a Hq Hr; cbn [cuts].
  - replace (a + Z.of_nat 0 * q + r) with a by lia. constructor.
  - destruct (Z.ltb_spec 0 r).
    + constructor; [lia|]. replace (a + Z.of_nat (S k) * q + r) with ((a + (q + 1)) + Z.of_nat k * q + (r - 1)) by lia.
      apply IH; lia.
    + constructor; [lia|]. replace (a + Z.of_nat (S k) * q + r) with ((a + q) + Z.of_nat k * q + r) by lia.
      apply IH; lia.
Qed.

Lemma cuts_length k : forall q r a, length (cuts k q r a) = k.
Proof. induction k; intros; cbn [cuts length]; auto. Qed.

Lemma cuts_shift k : forall q r a d,
  cuts k q r (d + a) = map (fun s => (d + fst s, snd s)) (cuts k q r a).
Proof.
  induction k as [|k IH]; intros q r a d; cbn [cuts map fst snd]; auto.
  rewrite <- Z.add_assoc. rewrite IH. reflexivity.
Qed.

Lemma chain_le a l b : chain a l b -> a <= b.
Proof. induction 1; lia. Qed.

Lemma chain_in a l b : chain a l b -> forall s n, In (s, n) l -> a <= s /\ 0 < n /\ s + n <= b.
Proof.
  induction 1 as [|a n l b Hn Hc IH]; intros s k Hin; [destruct Hin|].
  pose proof (chain_le _ _ _ Hc). destruct Hin as [He|Hin].
  - injection He as <- <-. lia.
  - specialize (IH _ _ Hin). lia.
Qed.

Lemma chain_cover a l b : chain a l b -> forall v, a <= v < b ->
  exists i s n, nth_error l i = Some (s, n) /\ s <= v < s + n.
Proof.
  induction 1 as [|a n l b Hn Hc IH]; intros v Hv; [lia|].
  destruct (Z_lt_le_dec v (a + n)) as [H|H].
  - exists 0%nat, a, n. split; [reflexivity|lia].
  - destruct (IH v) as (i & s & k & He & Hr); [lia|]. exists (S i), s, k. auto.
Qed.

Lemma chain_unique a l b : chain a l b -> forall i i' s n s' n' v,
  nth_error l i = Some (s, n) -> nth_error l i' = Some (s', n') ->
  s <= v < s + n -> s' <= v < s' + n' -> i = i'.
Proof.
  induction 1 as [|a n l b Hn Hc IH]; intros i i' s k s' k' v He He' Hv Hv'.
  - destruct i; discriminate.
  - destruct i as [|i], i' as [|i']; cbn [nth_error] in He, He'; auto.
    + injection He as <- <-. apply nth_error_In in He'. apply (chain_in _ _ _ Hc) in He'. lia.
    + injection He' as <- <-. apply nth_error_In in He. apply (chain_in _ _ _ Hc) in He. lia.
    + f_equal. eapply IH; eauto.
Qed.

(** ** Splitting a region *)

(** Rectangle [s] contains position ([a],[b]). *)
Definition covers (s : strip) (a b : Z) : Prop :=
  sx s <= a < sx s + sw s /\ sy s <= b < sy s + sh s.

(** [l] cuts the region [x,x+w) x [y,y+h) into non-empty rectangles: each inside the region,
    every position in exactly one of them. *)
Definition tiling (l : list strip) (x y w h : Z) : Prop :=
  (forall s, In s l -> 0 < sw s /\ 0 < sh s /\ x <= sx s /\ sx s + sw s <= x + w /\
                       y <= sy s /\ sy s + sh s <= y + h) /\
  (forall a b, x <= a < x + w -> y <= b < y + h ->
     exists i s, nth_error l i = Some s /\ covers s a b) /\
  (forall i i' s s' a b, nth_error l i = Some s -> nth_error l i' = Some s' ->
     covers s a b -> covers s' a b -> i = i').

Lemma tiling_rows l x y w h : 0 < w -> chain y l (y + h) ->
  tiling (map (fun s => mkStrip x (fst s) w (snd s)) l) x y w h.
Proof.
  intros Hw Hc. split; [|split].
  - intros s Hs. apply in_map_iff in Hs as ([a n] & <- & Hin). cbn [sx sy sw sh fst snd].
    apply (chain_in _ _ _ Hc) in Hin. lia.
  - intros a b Ha Hb. destruct (chain_cover _ _ _ Hc b Hb) as (i & s & n & He & Hr).
    exists i, (mkStrip x s w n). split; [rewrite nth_error_map, He; reflexivity|].
    unfold covers; cbn [sx sy sw sh]; lia.
  - intros i i' s s' a b H1 H2 C1 C2. rewrite nth_error_map in H1, H2.
    destruct (nth_error l i) as [[s1 n1]|] eqn:E1; [|discriminate].
    destruct (nth_error l i') as [[s2 n2]|] eqn:E2; [|discriminate].
    cbn [option_map] in H1, H2. injection H1 as <-. injection H2 as <-.
    unfold covers in C1, C2; cbn [sx sy sw sh fst snd] in C1, C2.
    eapply (chain_unique _ _ _ Hc i i' s1 n1 s2 n2 b); eauto; lia.
Qed.

Lemma tiling_cols l x y w h : 0 < h -> chain x l (x + w) ->
  tiling (map (fun s => mkStrip (fst s) y (snd s) h) l) x y w h.
Proof.
  intros Hw Hc. split; [|split].
  - intros s Hs. apply in_map_iff in Hs as ([a n] & <- & Hin). cbn [sx sy sw sh fst snd].
    apply (chain_in _ _ _ Hc) in Hin. lia.
  - intros a b Ha Hb. destruct (chain_cover _ _ _ Hc a Ha) as (i & s & n & He & Hr).
    exists i, (mkStrip s y n h). split; [rewrite nth_error_map, He; reflexivity|].
    unfold covers; cbn [sx sy sw sh]; lia.
  - intros i i' s s' a b H1 H2 C1 C2. rewrite nth_error_map in H1, H2.
    destruct (nth_error l i) as [[s1 n1]|] eqn:E1; [|discriminate].
    destruct (nth_error l i') as [[s2 n2]|] eqn:E2; [|discriminate].
    cbn [option_map] in H1, H2. injection H1 as <-. injection H2 as <-.
    unfold covers in C1, C2; cbn [sx sy sw sh fst snd] in C1, C2.
    eapply (chain_unique _ _ _ Hc i i' s1 n1 s2 n2 a); eauto; lia.
Qed.

(** The cuts used along one axis of size [h] for [count] tasks. *)
Definition axis_cuts (h count : Z) : list (Z * Z) :=
  cuts (Z.to_nat count) (h / count) (h mod count) 0.

Lemma axis_cuts_chain h count : 0 < count <= h -> chain 0 (axis_cuts h count) h.
Proof.
  intros H. unfold axis_cuts.
  replace h with (0 + Z.of_nat (Z.to_nat count) * (h / count) + h mod count) at 3.
  - apply cuts_chain; [apply Z.div_str_pos; lia|].
    pose proof (Z.mod_pos_bound h count). lia.
  - rewrite Z2Nat.id by lia. pose proof (Z.div_mod h count). lia.
Qed.

Lemma chain_shift d a l b : chain a l b -> chain (d + a) (map (fun s => (d + fst s, snd s)) l) (d + b).
Proof.
  induction 1 as [|a n l b Hn Hc IH]; cbn [map fst snd]; constructor; auto.
  replace (d + a + n) with (d + (a + n)) by lia. assumption.
Qed.

Definition place (x y : Z) (s : strip) : strip := mkStrip (x + sx s) (y + sy s) (sw s) (sh s).

(** The strips relative to the corner of the region. *)
Definition rel_strips (w h count : Z) (yAxis : bool) : list strip :=
  if yAxis then map (fun s => mkStrip 0 (fst s) w (snd s)) (axis_cuts h count)
  else map (fun s => mkStrip (fst s) 0 (snd s) h) (axis_cuts w count).

Lemma fill_axis_rel h count a : 0 < count <= h -> 0 <= a -> a + h < W32 ->
  fill_axis (Z.to_nat count) (h / count) (h mod count) a
  = map (fun s => (a + fst s, snd s)) (axis_cuts h count).
Proof.
  intros Hc Ha Hb. pose proof (Z.div_mod h count). pose proof (Z.mod_pos_bound h count).
  assert (0 < h / count) by (apply Z.div_str_pos; lia).
  rewrite fill_axis_cuts; [|lia|lia|lia|rewrite Z2Nat.id by lia; lia|rewrite Z2Nat.id by lia; lia].
  unfold axis_cuts. rewrite <- cuts_shift. f_equal. lia.
Qed.

Lemma area_fill_rel {E} x y w h count (yAxis : bool) :
  0 < count <= (if yAxis then h else w) -> 0 <= x -> 0 <= y -> x + w < W32 -> y + h < W32 ->
  @area_fill E x y w h count yAxis = Ok (map (place x y) (rel_strips w h count yAxis)).
Proof.
  intros Hc Hx Hy Hw Hh. unfold area_fill, rel_strips.
  destruct (Z.eqb_spec count 0); [lia|]. f_equal. destruct yAxis.
  - rewrite fill_axis_rel by lia. rewrite !map_map. apply map_ext. intros [? ?].
    unfold place; cbn [sx sy sw sh fst snd]. f_equal. lia.
  - rewrite fill_axis_rel by lia. rewrite !map_map. apply map_ext. intros [? ?].
    unfold place; cbn [sx sy sw sh fst snd]. f_equal. lia.
Qed.

Lemma rel_strips_tiling w h count (yAxis : bool) : 0 < w -> 0 < h -> 0 < count <= (if yAxis then h else w) ->
  tiling (rel_strips w h count yAxis) 0 0 w h.
Proof.
  intros Hw Hh Hc. unfold rel_strips. destruct yAxis.
  - apply tiling_rows; [lia|]. apply axis_cuts_chain. lia.
  - apply tiling_cols; [lia|]. apply axis_cuts_chain. lia.
Qed.

Lemma rel_strips_length w h count yAxis : 0 <= count ->
  Z.of_nat (length (rel_strips w h count yAxis)) = count.
Proof.
  intros H. unfold rel_strips, axis_cuts. destruct yAxis; rewrite map_length, cuts_length; lia.
Qed.

Lemma tiling_place l x y w h : tiling l 0 0 w h -> tiling (map (place x y) l) x y w h.
Proof.
  intros (H1 & H2 & H3). split; [|split].
  - intros s Hs. apply in_map_iff in Hs as (t & <- & Ht). specialize (H1 t Ht).
    unfold place; cbn [sx sy sw sh]. lia.
  - intros a b Ha Hb. destruct (H2 (a - x) (b - y)) as (i & s & He & Hc); try lia.
    exists i, (place x y s). split; [rewrite nth_error_map, He; reflexivity|].
    unfold covers, place in *; cbn [sx sy sw sh] in *. lia.
  - intros i i' s s' a b E1 E2 C1 C2. rewrite nth_error_map in E1, E2.
    destruct (nth_error l i) as [s1|] eqn:F1; [|discriminate].
    destruct (nth_error l i') as [s2|] eqn:F2; [|discriminate].
    cbn [option_map] in E1, E2. injection E1 as <-. injection E2 as <-.
    apply (H3 i i' s1 s2 (a - x) (b - y)); auto; unfold covers, place in *; cbn [sx sy sw sh] in *; lia.
Qed.

(** What AreaInfo::_calculate chooses. *)
Definition calc_count (w h n : Z) : Z * bool :=
  let maxX := w / cacheSize in
  let maxX := if maxX =? 0 then 1 else maxX in
  let maxX := if n <? maxX then n else maxX in
  let maxY := if n <? h then n else h in
  (if maxX <=? maxY then maxY else maxX, maxX <=? maxY).

Lemma calc_count_ok w h n : 0 < w -> 0 < h -> 0 < n ->
  0 < fst (calc_count w h n) <= (if snd (calc_count w h n) then h else w) /\ fst (calc_count w h n) <= n.
Proof.
  intros Hw Hh Hn. unfold calc_count, cacheSize; cbn [fst snd].
  destruct (Z.eqb_spec (w / 16) 0) as [E0|E0];
  repeat match goal with |- context [?a <? ?b] => destruct (Z.ltb_spec a b) end;
  repeat match goal with |- context [?a <=? ?b] => destruct (Z.leb_spec a b) end;
  lia.
Qed.

Definition calc_strips (w h n : Z) : list strip :=
  rel_strips w h (fst (calc_count w h n)) (snd (calc_count w h n)).

Lemma area_calculate_rel {E} x y w h n :
  0 < w -> 0 < h -> 0 < n -> 0 <= x -> 0 <= y -> x + w < W32 -> y + h < W32 ->
  @area_calculate E x y w h n = Ok (map (place x y) (calc_strips w h n)).
Proof.
  intros Hw Hh Hn Hx Hy Bx By. unfold calc_strips.
  destruct (calc_count_ok w h n Hw Hh Hn) as [H1 H2].
  rewrite <- area_fill_rel by assumption. reflexivity.
Qed.

Lemma calc_strips_tiling w h n : 0 < w -> 0 < h -> 0 < n -> tiling (calc_strips w h n) 0 0 w h.
Proof.
  intros Hw Hh Hn. destruct (calc_count_ok w h n Hw Hh Hn) as [H1 H2].
  apply rel_strips_tiling; auto.
Qed.

Lemma calc_strips_length w h n : 0 < w -> 0 < h -> 0 < n ->
  0 < Z.of_nat (length (calc_strips w h n)) <= n.
Proof.
  intros Hw Hh Hn. destruct (calc_count_ok w h n Hw Hh Hn) as [H1 H2].
  unfold calc_strips. rewrite rel_strips_length by lia. lia.
Qed.

(** ** Running the code of one task alone *)

Definition irun (i : instr) (m : mem) : res mem mem :=
  do vs <- loads m (isrc i);
  match ifn i vs with Some ws => stores m (idst i) ws | None => UB end.
Fixpoint run (l : list instr) (m : mem) : res mem mem :=
  match l with [] => Ok m | i :: l' => do m' <- irun i m; run l' m' end.

Lemma run_app l1 : forall l2 m, run (l1 ++ l2) m = bind (run l1 m) (run l2).
Proof.
  induction l1 as [|i l1 IH]; intros l2 m; cbn [app run]; auto.
  rewrite bind_assoc. apply bind_ext. intros; apply IH.
Qed.

(** What a task still has to do. *)
Definition trun (m : mem) (t : thread) : res mem mem :=
  match t with
  | TLoad ps vs fn ds rest =>
      do us <- loads m ps;
      match fn (vs ++ us) with Some ws => do m' <- stores m ds ws; run rest m' | None => UB end
  | TStore ds ws rest => do m' <- stores m ds ws; run rest m'
  | _ => Ok m
  end.

Lemma trun_start code m : trun m (tstart code) = run code m.
Proof.
  destruct code as [|i l]; [reflexivity|]. cbn [tstart trun run]. unfold irun.
  rewrite bind_assoc. apply bind_ext. intros vs _. cbn [app].
  destruct (ifn i vs); [|reflexivity]. reflexivity.
Qed.

Lemma tstep_trun m t m' t' : tstep m t = Ok (m', t') -> trun m' t' = trun m t.
Proof.
  destruct t as [[|p ps] vs fn ds rest|[|d ds] [|v ws] rest| |]; cbn [tstep]; intros H.
  - destruct (fn vs) as [ws|] eqn:E; [|discriminate]. injection H as <- <-.
    cbn [trun loads bind]. rewrite app_nil_r, E. reflexivity.
  - unfold load in *. destruct (inb m p) eqn:Ei; cbn [bind] in H; [|discriminate]. injection H as <- <-.
    cbn [trun loads]. unfold load. rewrite Ei. cbn [bind]. rewrite bind_assoc. apply bind_ext. intros us _.
    cbn [bind]. rewrite <- app_assoc. reflexivity.
  - injection H as <- <-. rewrite trun_start. reflexivity.
  - injection H as <- <-. rewrite trun_start. reflexivity.
  - injection H as <- <-. rewrite trun_start. reflexivity.
  - unfold store in H. destruct (inb m d) eqn:Ei; cbn [bind] in H; [|discriminate]. injection H as <- <-.
    cbn [trun stores]. unfold store. rewrite Ei. reflexivity.
  - injection H as <- <-. reflexivity.
  - injection H as <- <-. reflexivity.
Qed.

Lemma tstep_safe m t μ : trun m t = Ok μ -> exists m' t', tstep m t = Ok (m', t').
Proof.
  destruct t as [[|p ps] vs fn ds rest|[|d ds] [|v ws] rest| |]; cbn [tstep trun]; intros H; eauto.
  - cbn [loads bind] in H. rewrite app_nil_r in H. destruct (fn vs); [eauto|discriminate].
  - cbn [loads] in H. unfold load in *. destruct (inb m p); cbn [bind] in *; [eauto|discriminate].
  - cbn [stores] in H. unfold store in *. destruct (inb m d); cbn [bind] in *; [eauto|discriminate].
Qed.

(** Footprints. *)
Definition code_writes (l : list instr) (p : ptr) : Prop := exists i, In i l /\ In p (idst i).
Definition code_reads (l : list instr) (p : ptr) : Prop := exists i, In i l /\ In p (isrc i).
Definition t_writes (t : thread) (p : ptr) : Prop :=
  match t with
  | TLoad _ _ _ ds rest => In p ds \/ code_writes rest p
  | TStore ds _ rest => In p ds \/ code_writes rest p
  | _ => False
  end.
Definition t_reads (t : thread) (p : ptr) : Prop :=
  match t with
  | TLoad ps _ _ _ rest => In p ps \/ code_reads rest p
  | TStore _ _ rest => code_reads rest p
  | _ => False
  end.

Lemma start_writes code p : t_writes (tstart code) p <-> code_writes code p.
Proof.
  destruct code as [|i l]; cbn [tstart t_writes]; unfold code_writes; cbn [In].
  - split; [tauto|]. intros (i & [] & _).
  - split.
    + intros [H|(k & H & H')]; [exists i|exists k]; tauto.
    + intros (k & [<-|H] & H'); [tauto|right; exists k; tauto].
Qed.
Lemma start_reads code p : t_reads (tstart code) p <-> code_reads code p.
Proof.
  destruct code as [|i l]; cbn [tstart t_reads]; unfold code_reads; cbn [In].
  - split; [tauto|]. intros (i & [] & _).
  - split.
    + intros [H|(k & H & H')]; [exists i|exists k]; tauto.
    + intros (k & [<-|H] & H'); [tauto|right; exists k; tauto].
Qed.

Lemma tstep_foot m t m' t' : tstep m t = Ok (m', t') ->
  (forall p, t_writes t' p -> t_writes t p) /\ (forall p, t_reads t' p -> t_reads t p) /\
  same_len m m' /\ (forall p, ~ t_writes t p -> get m' p = get m p).
Proof.
  destruct t as [[|p0 ps] vs fn ds rest|[|d ds] [|v ws] rest| |]; cbn [tstep]; intros H.
  - destruct (fn vs) as [ws|] eqn:E; [|discriminate]. injection H as <- <-.
    cbn [t_writes t_reads]. split; [auto|]. split; [auto|]. split; [apply same_len_refl|auto].
  - unfold load in *. destruct (inb m p0) eqn:Ei; cbn [bind] in H; [|discriminate]. injection H as <- <-.
    cbn [t_writes t_reads In]. split; [auto|]. split; [tauto|]. split; [apply same_len_refl|auto].
  - injection H as <- <-. split; [intros p Hp; apply start_writes in Hp; cbn; auto|].
    split; [intros p Hp; apply start_reads in Hp; cbn; auto|]. split; [apply same_len_refl|auto].
  - injection H as <- <-. split; [intros p Hp; apply start_writes in Hp; cbn; auto|].
    split; [intros p Hp; apply start_reads in Hp; cbn; auto|]. split; [apply same_len_refl|auto].
  - injection H as <- <-. split; [intros p Hp; apply start_writes in Hp; cbn; auto|].
    split; [intros p Hp; apply start_reads in Hp; cbn; auto|]. split; [apply same_len_refl|auto].
  - unfold store in H. destruct (inb m d) eqn:Ei; cbn [bind] in H; [|discriminate]. injection H as <- <-.
    cbn [t_writes t_reads In]. split; [tauto|]. split; [auto|].
    split; [intros b; apply len_upd|]. intros p Hp. apply get_upd_other. intros ->. tauto.
  - injection H as <- <-. split; [auto|]. split; [auto|]. split; [apply same_len_refl|auto].
  - injection H as <- <-. split; [auto|]. split; [auto|]. split; [apply same_len_refl|auto].
Qed.

(** Frame: the outcome of a task depends only on the locations it accesses. *)
Definition agree (A : ptr -> Prop) (m m' : mem) : Prop :=
  same_len m m' /\ forall p, A p -> get m' p = get m p.

Lemma loads_frame {E} A m m' : agree A m m' -> forall ps, (forall p, In p ps -> A p) ->
  @loads E m' ps = loads m ps.
Proof.
  intros [Hl Hg]. induction ps as [|p ps IH]; intros HA; [reflexivity|]. cbn [loads].
  unfold load. rewrite (same_len_inb m) by assumption. rewrite Hg by (apply HA; left; auto).
  destruct (inb m p); cbn [bind]; auto. rewrite IH by (intros; apply HA; right; auto). reflexivity.
Qed.

Lemma stores_frame {E} A : forall ps vs m m' μ, agree A m m' -> (forall p, In p ps -> A p) ->
  @stores E m ps vs = Ok μ -> exists μ', @stores E m' ps vs = Ok μ' /\ agree A μ μ'.
Proof.
  induction ps as [|p ps IH]; intros vs m m' μ Ha HA H.
  - cbn [stores] in *. injection H as <-. eauto.
  - destruct vs as [|v vs]; cbn [stores] in *; [injection H as <-; eauto|].
    destruct Ha as [Hl Hg]. unfold store in *. rewrite (same_len_inb m) by assumption.
    destruct (inb m p); cbn [bind] in *; [|discriminate].
    eapply IH; [|intros; apply HA; right; auto|exact H].
    split; [intros b; rewrite !len_upd; apply Hl|].
    intros q Hq. rewrite !get_upd. rewrite Hg by assumption. reflexivity.
Qed.

Lemma run_frame A : forall l m m' μ, agree A m m' ->
  (forall p, code_reads l p -> A p) -> (forall p, code_writes l p -> A p) ->
  run l m = Ok μ -> exists μ', run l m' = Ok μ' /\ agree A μ μ'.
Proof.
  induction l as [|i l IH]; intros m m' μ Ha HR HW H; cbn [run] in *.
  - injection H as <-. eauto.
  - apply bind_ok_inv in H as (m1 & H1 & H2). unfold irun in *.
    rewrite (loads_frame A m m'); [|assumption|intros p Hp; apply HR; exists i; cbn; auto].
    destruct (loads m (isrc i)) as [vs| | |]; cbn [bind] in *; try discriminate.
    destruct (ifn i vs) as [ws|]; [|discriminate].
    destruct (stores_frame A _ _ _ _ _ Ha (fun p Hp => HW p (ex_intro _ i (conj (or_introl eq_refl) Hp))) H1)
      as (m1' & -> & Ha').
    cbn [bind]. eapply IH; eauto.
    + intros p (k & Hk & Hp). apply HR. exists k; cbn; auto.
    + intros p (k & Hk & Hp). apply HW. exists k; cbn; auto.
Qed.

Lemma trun_frame A t m m' μ : agree A m m' ->
  (forall p, t_reads t p -> A p) -> (forall p, t_writes t p -> A p) ->
  trun m t = Ok μ -> exists μ', trun m' t = Ok μ' /\ agree A μ μ'.
Proof.
  intros Ha HR HW H. destruct t as [ps vs fn ds rest|ds ws rest| |]; cbn [trun t_reads t_writes] in *.
  - rewrite (loads_frame A m m') by (auto; intros; apply HR; auto).
    destruct (loads m ps) as [us| | |]; cbn [bind] in *; try discriminate.
    destruct (fn (vs ++ us)) as [ws|]; [|discriminate].
    apply bind_ok_inv in H as (m1 & H1 & H2).
    destruct (stores_frame A _ _ _ _ _ Ha (fun p Hp => HW p (or_introl Hp)) H1) as (m1' & -> & Ha').
    cbn [bind]. eapply run_frame; eauto.
  - apply bind_ok_inv in H as (m1 & H1 & H2).
    destruct (stores_frame A _ _ _ _ _ Ha (fun p Hp => HW p (or_introl Hp)) H1) as (m1' & -> & Ha').
    cbn [bind]. eapply run_frame; eauto.
  - injection H as <-. eauto.
  - injection H as <-. eauto.
Qed.

(** ** Interleaving tasks without data races *)

Lemma step_nth_spec : forall ts m i m' ts', step_nth m ts i = Ok (m', ts') ->
  length ts' = length ts /\
  ((nth_error ts i = None /\ m' = m /\ ts' = ts) \/
   exists t t', nth_error ts i = Some t /\ tstep m t = Ok (m', t') /\ nth_error ts' i = Some t' /\
     forall j, j <> i -> nth_error ts' j = nth_error ts j).
Proof.
  induction ts as [|t ts IH]; intros m i m' ts' H.
  - cbn [step_nth] in H. assert (H' : (m, @nil thread) = (m', ts')) by (destruct i; congruence).
    injection H' as <- <-. split; auto. left. destruct i; auto.
  - destruct i as [|i]; cbn [step_nth] in H.
    + apply bind_ok_inv in H as ([m1 t1] & H1 & H2). injection H2 as <- <-. split; [reflexivity|].
      right. exists t, t1. cbn [nth_error]. repeat split; auto. intros [|j] Hj; [congruence|reflexivity].
    + apply bind_ok_inv in H as ([m1 ts1] & H1 & H2). injection H2 as <- <-.
      apply IH in H1 as (Hlen & [(Hn & -> & ->)|(t0 & t0' & Hn & Hs & Hn' & Hj)]).
      * split; [cbn [length]; lia|]. left. auto.
      * split; [cbn [length]; lia|]. right. exists t0, t0'. cbn [nth_error]. repeat split; auto.
        intros [|j] Hne; [reflexivity|]. cbn [nth_error]. apply Hj. congruence.
Qed.

Lemma step_nth_ok : forall ts m i, (forall t, nth_error ts i = Some t -> exists m' t', tstep m t = Ok (m', t')) ->
  exists m' ts', step_nth m ts i = Ok (m', ts').
Proof.
  induction ts as [|t ts IH]; intros m i H.
  - exists m, []. destruct i; reflexivity.
  - destruct i as [|i]; cbn [step_nth].
    + destruct (H t eq_refl) as (m' & t' & ->). cbn [bind]. eauto.
    + destruct (IH m i) as (m' & ts' & ->); [intros; apply H; assumption|]. cbn [bind]. eauto.
Qed.

Section Race.
Variable m0 : mem.
Variable N : nat.
Variable W A : nat -> ptr -> Prop.     (* written, accessed locations of each task *)
Variable mf : nat -> mem.              (* memory after running the task alone *)
Hypothesis WA : forall i p, W i p -> A i p.
Hypothesis race_free : forall i j p, (i < N)%nat -> (j < N)%nat -> i <> j -> W i p -> ~ A j p.

Definition pinv (m : mem) (ts : list thread) : Prop :=
  same_len m0 m /\ length ts = N /\
  (forall i t, nth_error ts i = Some t ->
     (forall p, t_writes t p -> W i p) /\ (forall p, t_reads t p -> A i p) /\
     exists μ, trun m t = Ok μ /\ forall p, W i p -> get μ p = get (mf i) p) /\
  (forall p, (forall i, (i < N)%nat -> ~ W i p) -> get m p = get m0 p).

Lemma pinv_step m ts i : pinv m ts -> exists m' ts', step_nth m ts i = Ok (m', ts') /\ pinv m' ts'.
Proof.
  intros (Hl & HN & Ht & Hf).
  destruct (step_nth_ok ts m i) as (m' & ts' & Hs).
  { intros t He. destruct (Ht i t He) as (_ & _ & μ & Hμ & _). eapply tstep_safe; eauto. }
  exists m', ts'. split; [exact Hs|].
  destruct (step_nth_spec _ _ _ _ _ Hs) as (Hlen & [(Hn & -> & ->)|(t & t' & He & Hst & He' & Hj)]).
  - split; [|split; [|split]]; auto.
  - destruct (tstep_foot _ _ _ _ Hst) as (F1 & F2 & F3 & F4).
    destruct (Ht i t He) as (T1 & T2 & μ & Hμ & Hv).
    assert (Hi : (i < N)%nat) by (rewrite <- HN; apply nth_error_Some; congruence).
    split; [eapply same_len_trans; eauto|]. split; [congruence|]. split.
    + intros j u Hu. destruct (Nat.eq_dec j i) as [->|Hne].
      * rewrite He' in Hu. injection Hu as <-.
        split; [intros p Hp; apply T1, F1, Hp|]. split; [intros p Hp; apply T2, F2, Hp|].
        exists μ. split; auto. rewrite (tstep_trun _ _ _ _ Hst). exact Hμ.
      * rewrite Hj in Hu by assumption. destruct (Ht j u Hu) as (U1 & U2 & ν & Hν & Hw).
        assert (HjN : (j < N)%nat) by (rewrite <- HN; apply nth_error_Some; congruence).
        split; [exact U1|]. split; [exact U2|].
        destruct (trun_frame (A j) u m m' ν) as (ν' & Hν' & _ & Hg); auto.
        { split; [exact F3|]. intros p Hp. apply F4. intros Hw'. apply T1 in Hw'.
          apply (race_free i j p Hi HjN); auto. }
        exists ν'. split; [exact Hν'|]. intros p Hp. rewrite Hg by auto. auto.
    + intros p Hp. rewrite F4; [auto|]. intros Hw. apply T1 in Hw. eapply Hp; eauto.
Qed.

Lemma pinv_interleave sched : forall m ts, pinv m ts ->
  exists m' ts', interleave sched m ts = Ok (m', ts') /\ pinv m' ts'.
Proof.
  induction sched as [|i s IH]; intros m ts H; cbn [interleave].
  - eauto.
  - destruct (pinv_step m ts i H) as (m1 & ts1 & -> & H1). cbn [bind]. apply IH; assumption.
Qed.

Lemma pinv_final m ts : pinv m ts -> forallb finished ts = true ->
  same_len m0 m /\
  (forall i p, (i < N)%nat -> W i p -> get m p = get (mf i) p) /\
  (forall p, (forall i, (i < N)%nat -> ~ W i p) -> get m p = get m0 p).
Proof.
  intros (Hl & HN & Ht & Hf) Hfin. split; [exact Hl|]. split; [|exact Hf].
  intros i p Hi Hp. destruct (nth_error ts i) as [t|] eqn:E.
  - destruct (Ht i t E) as (_ & _ & μ & Hμ & Hv).
    rewrite forallb_forall in Hfin. specialize (Hfin t (nth_error_In _ _ E)).
    destruct t; try discriminate; cbn [trun] in Hμ; injection Hμ as <-; auto.
  - apply nth_error_None in E. lia.
Qed.
End Race.

(** Every task makes progress each time it is scheduled. *)
Definition isize (i : instr) : nat := (length (isrc i) + length (idst i) + 2)%nat.
Definition code_size (l : list instr) : nat := fold_right (fun i n => isize i + n)%nat 0%nat l.
Definition tsize (t : thread) : nat :=
  match t with
  | TLoad ps _ _ ds rest => (length ps + length ds + 2 + code_size rest)%nat
  | TStore ds _ rest => (length ds + 1 + code_size rest)%nat
  | _ => 0%nat
  end.

Lemma tsize_start l : tsize (tstart l) = code_size l.
Proof. destruct l; cbn [tstart tsize code_size fold_right]; auto. Qed.

Lemma tsize_step m t m' t' : tstep m t = Ok (m', t') ->
  if finished t then t' = t else (tsize t' < tsize t)%nat.
Proof.
  destruct t as [[|p0 ps] vs fn ds rest|[|d ds] [|v ws] rest| |]; cbn [tstep finished]; intros H.
  - destruct (fn vs); [|discriminate]. injection H as <- <-. cbn [tsize length]. lia.
  - unfold load in *. destruct (inb m p0); cbn [bind] in H; [|discriminate]. injection H as <- <-. cbn [tsize length]. lia.
  - injection H as <- <-. rewrite tsize_start. cbn [tsize length]. lia.
  - injection H as <- <-. rewrite tsize_start. cbn [tsize length]. lia.
  - injection H as <- <-. rewrite tsize_start. cbn [tsize length]. lia.
  - unfold store in *. destruct (inb m d); cbn [bind] in H; [|discriminate]. injection H as <- <-. cbn [tsize length]. lia.
  - congruence.
  - congruence.
Qed.

Lemma finished_size t : finished t = true -> tsize t = 0%nat.
Proof. destruct t; cbn; congruence. Qed.
Lemma size_finished t : tsize t = 0%nat -> finished t = true.
Proof. destruct t; cbn; auto; lia. Qed.

Lemma interleave_size sched : forall m ts m' ts', interleave sched m ts = Ok (m', ts') ->
  length ts' = length ts /\
  forall i t, nth_error ts i = Some t -> exists t', nth_error ts' i = Some t' /\
    (tsize t' <= tsize t - count_occ Nat.eq_dec sched i)%nat.
Proof.
  induction sched as [|k s IH]; intros m ts m' ts' H; cbn [interleave] in H.
  - injection H as <- <-. split; auto. intros i t Hi. exists t. split; auto. cbn [count_occ]. lia.
  - apply bind_ok_inv in H as ([m1 ts1] & H1 & H2).
    apply IH in H2 as [L2 S2].
    destruct (step_nth_spec _ _ _ _ _ H1) as (L1 & Hc). split; [congruence|].
    intros i t Hi. destruct Hc as [(Hn & -> & ->)|(u & u' & He & Hst & He' & Hj)].
    + destruct (S2 i t Hi) as (t' & Ht' & Hs). exists t'. split; auto.
      rewrite count_occ_cons_neq; [assumption|]. intros ->. congruence.
    + destruct (Nat.eq_dec k i) as [->|Hne].
      * rewrite Hi in He. injection He as <-. destruct (S2 i u' He') as (t' & Ht' & Hs).
        exists t'. split; auto. rewrite count_occ_cons_eq by reflexivity.
        pose proof (tsize_step _ _ _ _ Hst) as Hz. destruct (finished t) eqn:Ef.
        -- subst u'. apply finished_size in Ef. lia.
        -- lia.
      * destruct (S2 i t) as (t' & Ht' & Hs); [rewrite Hj by congruence; assumption|].
        exists t'. split; auto. rewrite count_occ_cons_neq by assumption. assumption.
Qed.

Lemma start_all_ok codes : start_all (map Ok codes) = Ok (map tstart codes).
Proof.
  induction codes as [|c l IH]; cbn [map start_all bind]; auto. rewrite IH. reflexivity.
Qed.

(** The outcome of a multi-threaded call, over all schedules: it never fails; when all tasks
    have finished the memory satisfies [Q]; every schedule that runs each of the [n] tasks
    often enough finishes. *)
Definition every_schedule (n : nat) (call : list nat -> res mem mem) (Q : mem -> Prop) : Prop :=
  (forall sched, call sched = Timeout \/ exists M, call sched = Ok M /\ Q M) /\
  (exists K, forall sched, (forall i, (i < n)%nat -> (K <= count_occ Nat.eq_dec sched i)%nat) ->
     call sched <> Timeout).

Lemma existsb_failed_none ts : (forall i t, nth_error ts i = Some t -> failed t = false) -> existsb failed ts = false.
Proof.
  intros H. destruct (existsb failed ts) eqn:E; auto. apply existsb_exists in E as (t & Hin & Hf).
  apply In_nth_error in Hin as (i & Hi). rewrite (H i t Hi) in Hf. discriminate.
Qed.

Lemma tstep_failed m t m' t' : tstep m t = Ok (m', t') -> failed t = false -> failed t' = false.
Proof.
  destruct t as [[|p0 ps] vs fn ds rest|[|d ds] [|v ws] rest| |]; cbn [tstep]; intros H Hf; try discriminate Hf.
  - destruct (fn vs); [|discriminate]. injection H as <- <-. reflexivity.
  - unfold load in *. destruct (inb m p0); cbn [bind] in H; [|discriminate]. injection H as <- <-. reflexivity.
  - injection H as <- <-. destruct rest; reflexivity.
  - injection H as <- <-. destruct rest; reflexivity.
  - injection H as <- <-. destruct rest; reflexivity.
  - unfold store in *. destruct (inb m d); cbn [bind] in H; [|discriminate]. injection H as <- <-. reflexivity.
  - injection H as <- <-. reflexivity.
Qed.

Lemma interleave_failed sched : forall m ts m' ts', interleave sched m ts = Ok (m', ts') ->
  existsb failed ts = false -> existsb failed ts' = false.
Proof.
  induction sched as [|k s IH]; intros m ts m' ts' H Hf; cbn [interleave] in H.
  - injection H as <- <-. assumption.
  - apply bind_ok_inv in H as ([m1 ts1] & H1 & H2). apply IH in H2; auto.
    apply existsb_failed_none. intros i t Hi.
    assert (Hall : forall u, In u ts -> failed u = false).
    { intros u Hu. destruct (failed u) eqn:E; auto. rewrite <- Hf. symmetry. apply existsb_exists. eauto. }
    destruct (step_nth_spec _ _ _ _ _ H1) as (L1 & [(Hn & -> & ->)|(u & u' & He & Hst & He' & Hj)]).
    + apply Hall. eapply nth_error_In; eauto.
    + destruct (Nat.eq_dec i k) as [->|Hne].
      * rewrite He' in Hi. injection Hi as <-. eapply tstep_failed; eauto. apply Hall. eapply nth_error_In; eauto.
      * rewrite Hj in Hi by assumption. apply Hall. eapply nth_error_In; eauto.
Qed.

Lemma length_le_nth {A} (l : list A) (size : A -> nat) :
  exists K, forall i a, nth_error l i = Some a -> (size a <= K)%nat.
Proof.
  induction l as [|a l [K HK]].
  - exists 0%nat. intros [|i]; discriminate.
  - exists (Nat.max (size a) K). intros [|i] b Hb; cbn [nth_error] in Hb.
    + injection Hb as <-. lia.
    + specialize (HK i b Hb). lia.
Qed.

(** Race-free tasks: under every schedule the result is that of running each task alone. *)
Theorem process_race_free m0 codes n (mf : nat -> mem) (W A : nat -> ptr -> Prop) :
  (length codes <= n)%nat ->
  (forall i c, nth_error codes i = Some c ->
     run c m0 = Ok (mf i) /\ (forall p, code_writes c p -> W i p) /\ (forall p, code_reads c p -> A i p)) ->
  (forall i p, W i p -> A i p) ->
  (forall i j p, (i < length codes)%nat -> (j < length codes)%nat -> i <> j -> W i p -> ~ A j p) ->
  every_schedule n (fun s => process s m0 (map Ok codes))
    (fun M => same_len m0 M /\
       (forall i p, (i < length codes)%nat -> W i p -> get M p = get (mf i) p) /\
       (forall p, (forall i, (i < length codes)%nat -> ~ W i p) -> get M p = get m0 p)).
Proof.
  intros Hn Hc WA RF.
  assert (H0 : pinv m0 (length codes) W A mf m0 (map tstart codes)).
  { split; [apply same_len_refl|]. split; [apply map_length|]. split; [|auto].
    intros i t Ht. rewrite nth_error_map in Ht. destruct (nth_error codes i) as [c|] eqn:E; [|discriminate].
    cbn [option_map] in Ht. injection Ht as <-. destruct (Hc i c E) as (R & HW & HA).
    split; [intros p Hp; apply HW, start_writes, Hp|]. split; [intros p Hp; apply HA, start_reads, Hp|].
    exists (mf i). rewrite trun_start. auto. }
  assert (Hfail0 : existsb failed (map tstart codes) = false).
  { apply existsb_failed_none. intros i t Ht. rewrite nth_error_map in Ht.
    destruct (nth_error codes i) as [c|]; [|discriminate]. injection Ht as <-. destruct c; reflexivity. }
  split.
  - intros sched. unfold process. rewrite start_all_ok. cbn [bind].
    destruct (pinv_interleave m0 (length codes) W A mf WA RF sched _ _ H0) as (m' & ts' & He & Hi).
    rewrite He. rewrite (interleave_failed _ _ _ _ _ He Hfail0).
    destruct (forallb finished ts') eqn:Ef; [right|left; reflexivity].
    exists m'. split; [reflexivity|]. eapply pinv_final; eauto.
  - destruct (length_le_nth (map tstart codes) tsize) as [K HK]. exists K. intros sched Hs.
    unfold process. rewrite start_all_ok. cbn [bind].
    destruct (pinv_interleave m0 (length codes) W A mf WA RF sched _ _ H0) as (m' & ts' & He & Hi).
    rewrite He. rewrite (interleave_failed _ _ _ _ _ He Hfail0).
    destruct (interleave_size _ _ _ _ _ He) as [Hlen Hsz]. rewrite map_length in Hlen.
    replace (forallb finished ts') with true; [discriminate|].
    symmetry. apply forallb_forall. intros t Ht. apply In_nth_error in Ht as (i & Ht).
    assert (Hi' : (i < length codes)%nat) by (rewrite <- Hlen; apply nth_error_Some; congruence).
    destruct (nth_error (map tstart codes) i) as [u|] eqn:Eu.
    + destruct (Hsz i u Eu) as (t' & Ht' & Hle). rewrite Ht in Ht'. injection Ht' as <-.
      specialize (HK i u Eu). specialize (Hs i ltac:(lia)). apply size_finished. lia.
    + apply nth_error_None in Eu. rewrite map_length in Eu. lia.
Qed.
