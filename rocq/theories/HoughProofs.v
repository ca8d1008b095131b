(** The Hough transform for any number type: the loops end, the best strip of an angle, the
    best angle, the final partition. *)
From Coq Require Import ZArith List Bool Lia Permutation.
From Verif Require Import Base BaseProofs FileProofs Arith Math HaarProofs.
Import ListNotations.
Open Scope Z_scope.

Lemma lrd_ok {E X} (l : list X) i d : 0 <= i < Z.of_nat (length l) -> @lrd E X l i = Ok (nth (Z.to_nat i) l d).
Proof.
  intros H. unfold lrd. destruct (Z.leb_spec 0 i); [|lia].
  rewrite (nth_error_nth' l d) by lia. reflexivity.
Qed.

Section HOUGH.
Variable A : arith.
Variable L : hough_lib A.
Notation num := (carrier A).
Notation point := (num * num)%type.
Notation at_ ds i := (nth (Z.to_nat i) ds (aZ A 0)).

Lemma extend_ok ds tol e : 0 <= e <= Z.of_nat (length ds) -> Z.of_nat (length ds) < W64 ->
  exists e', extend A ds tol e = Ok e' /\ e <= e' <= Z.of_nat (length ds) /\
    (forall k, e <= k < e' -> alt A tol (at_ ds k) = false) /\
    (e' = Z.of_nat (length ds) \/ alt A tol (at_ ds e') = true).
Proof.
  intros He Hn. unfold extend. set (n := Z.of_nat (length ds)) in *.
  match goal with |- context [loop ?fu ?cc ?bb ?ss] =>
    destruct (loop_rule (fun s : Z * bool => e <= fst s <= n /\ (forall k, e <= k < fst s -> alt A tol (at_ ds k) = false) /\
        (snd s = true -> fst s < n /\ alt A tol (at_ ds (fst s)) = true))
      (fun s => if snd s then 0 else n - fst s + 1) cc bb) with (fuel := fu) (s := ss) as ([e' br] & E & (H1 & H2 & H3) & C) end.
  - intros [k br] (H & _). cbn [fst snd] in *. destruct br; lia.
  - intros [k br] (H & Hk & _) C. cbn [fst snd] in *. apply andb_true_iff in C as [C1 C2]. destruct br; [discriminate C1|].
    rewrite (lrd_ok ds k (aZ A 0)) by lia. cbn [bind]. destruct (alt A tol (at_ ds k)) eqn:El; eexists; (split; [reflexivity|]); cbn [fst snd].
    + split; [|lia]. split; [lia|]. split; [exact Hk|]. intros _. split; [lia|exact El].
    + rewrite u64_small by lia. split; [|lia]. split; [lia|]. split; [|discriminate].
      intros j Hj. destruct (Z.eq_dec j k) as [->|]; [exact El|apply Hk; lia].
  - cbn [fst snd]. split; [lia|]. split; [lia|discriminate].
  - cbn [fst snd]. unfold fuel_of. lia.
  - exists e'. rewrite E. cbn [bind fst snd] in *. split; [reflexivity|]. split; [exact H1|]. split; [exact H2|].
    destruct br; [right; apply H3; reflexivity|]. left. cbn [negb andb] in C. lia.
Qed.

(** [ordered_by]: what makes the sliding window right. *)
Definition ordered_by (range : num) (ds : list num) : Prop :=
  (forall i j k, 0 <= i <= j -> j < Z.of_nat (length ds) -> 0 <= k < Z.of_nat (length ds) ->
     alt A (aadd A range (at_ ds j)) (at_ ds k) = true -> alt A (aadd A range (at_ ds i)) (at_ ds k) = true) /\
  (forall i j k, 0 <= i <= j -> j < Z.of_nat (length ds) -> 0 <= k < Z.of_nat (length ds) ->
     alt A (aadd A range (at_ ds k)) (at_ ds i) = true -> alt A (aadd A range (at_ ds k)) (at_ ds j) = true).

Lemma best_strip_ok range ds : 1 <= Z.of_nat (length ds) < W64 ->
  (forall x, In x ds -> alt A (aadd A range x) x = false) ->
  exists i c, best_strip A range ds = Ok (i, c) /\ 0 <= i /\ 1 <= c /\ i + c <= Z.of_nat (length ds) /\
    (ordered_by range ds ->
     (forall k, i <= k < i + c -> alt A (aadd A range (at_ ds i)) (at_ ds k) = false) /\
     (forall p k, 0 <= p <= k -> k < Z.of_nat (length ds) -> alt A (aadd A range (at_ ds p)) (at_ ds k) = false -> k + 1 - p <= c)).
Proof.
  intros Hn Hs. unfold best_strip. set (n := Z.of_nat (length ds)) in *.
  assert (Hself : forall k, 0 <= k < n -> alt A (aadd A range (at_ ds k)) (at_ ds k) = false).
  { intros k Hk. apply Hs, nth_In. lia. }
  set (P := fun s : Z * Z * Z * Z => let '(p, e, i, c) := s in
    0 <= p <= e /\ 1 <= e <= n /\ 0 <= i /\ 1 <= c /\ i + c <= e /\ (p = 0 -> e = 1) /\ p <= n - 1 + (if e =? n then 1 else 0) /\
    (ordered_by range ds ->
      (forall k, i <= k < i + c -> alt A (aadd A range (at_ ds i)) (at_ ds k) = false) /\
      (1 <= p -> (forall k, 0 <= k < e -> alt A (aadd A range (at_ ds (p - 1))) (at_ ds k) = false) /\ (e = n -> n - (p - 1) <= c)) /\
      (forall p' k, 0 <= p' <= k -> k < n -> p' < p -> alt A (aadd A range (at_ ds p')) (at_ ds k) = false -> k + 1 - p' <= c))).
  match goal with |- context [loop ?fu ?cc ?bb ?ss] =>
    destruct (loop_rule P (fun s => n - fst (fst (fst s))) cc bb) with (fuel := fu) (s := ss) as ([[[p e] i] c0] & E & HP & C) end.
  - intros [[[p e] i] c] (H1 & H2 & _). cbn [fst]. lia.
  - intros [[[p e] i] c] (H1 & H2 & H3 & H4 & H5 & H6 & H7 & H8) C. assert (He : e < n) by lia.
    rewrite (lrd_ok ds p (aZ A 0)) by lia. cbn [bind].
    destruct (extend_ok ds (aadd A range (at_ ds p)) e) as (e' & Ee & Le & Ke & De); [lia|lia|]. fold n in Le, De.
    rewrite Ee. cbn [bind].
    assert (Hpe : p + 1 <= e').
    { destruct (Z.eq_dec p e) as [->|]; [|lia]. destruct (Z.eq_dec e' e) as [->|]; [|lia].
      destruct De as [De|De]; [lia|]. rewrite Hself in De by lia. discriminate De. }
    rewrite (u64_small (e' - p)) by lia. rewrite (u64_small (p + 1)) by lia.
    assert (V : ordered_by range ds -> forall k, 0 <= k < e' -> alt A (aadd A range (at_ ds p)) (at_ ds k) = false).
    { intros O k Hk. destruct (Z_lt_dec k e) as [l|l]; [|apply Ke; lia].
      destruct (Z_lt_dec p 1) as [lp|lp].
      - assert (p = 0) by lia. assert (k = 0) by lia. subst p k. apply Hself. lia.
      - destruct (H8 O) as (_ & W & _). destruct (W ltac:(lia)) as (W1 & _). specialize (W1 k ltac:(lia)).
        destruct (alt A (aadd A range (at_ ds p)) (at_ ds k)) eqn:El; [|reflexivity].
        destruct O as [O _]. rewrite (O (p - 1) p k) in W1; [discriminate W1|lia|fold n; lia|fold n; lia|exact El]. }
    assert (M : ordered_by range ds -> forall k, p <= k -> k < n -> alt A (aadd A range (at_ ds p)) (at_ ds k) = false -> k + 1 - p <= e' - p).
    { intros O k Hk Hkn Hf. destruct (Z_lt_dec k e') as [l|l]; [lia|]. destruct De as [De|De]; [lia|].
      destruct O as [_ O]. rewrite (O e' k p) in Hf; [discriminate Hf|lia|fold n; lia|fold n; lia|exact De]. }
    destruct (Z.ltb_spec c (e' - p)).
    + eexists. split; [reflexivity|]. split; [|cbn [fst]; lia]. unfold P.
      split; [lia|]. split; [lia|]. split; [lia|]. split; [lia|]. split; [lia|]. split; [lia|].
      split; [destruct (Z.eqb_spec e' n); lia|]. intros O. specialize (V O). specialize (M O).
      destruct (H8 O) as (W0 & W1 & W2). split; [intros k Hk; apply V; lia|].
      split; [intros _; replace (p + 1 - 1) with p by lia; split; [exact V|lia]|].
      intros p' k Hp Hk Hpp Hf. destruct (Z.eq_dec p' p) as [->|]; [apply M; auto; lia|].
      pose proof (W2 p' k Hp Hk ltac:(lia) Hf). lia.
    + eexists. split; [reflexivity|]. split; [|cbn [fst]; lia]. unfold P.
      split; [lia|]. split; [lia|]. split; [lia|]. split; [lia|]. split; [lia|]. split; [lia|].
      split; [destruct (Z.eqb_spec e' n); lia|]. intros O. specialize (V O). specialize (M O).
      destruct (H8 O) as (W0 & W1 & W2). split; [exact W0|].
      split; [intros _; replace (p + 1 - 1) with p by lia; split; [exact V|lia]|].
      intros p' k Hp Hk Hpp Hf. destruct (Z.eq_dec p' p) as [->|]; [|apply (W2 p' k); auto; lia].
      pose proof (M k ltac:(lia) Hk Hf). lia.
  - unfold P. split; [lia|]. split; [lia|]. split; [lia|]. split; [lia|]. split; [lia|]. split; [lia|].
    split; [destruct (Z.eqb_spec 1 n); lia|]. intros O. split; [|split; [lia|lia]].
    intros k Hk. replace k with 0 by lia. apply Hself. lia.
  - cbn [fst]. unfold fuel_of. lia.
  - rewrite E. cbn [bind]. exists i, c0. split; [reflexivity|]. destruct HP as (H1 & H2 & H3 & H4 & H5 & H6 & H7 & H8).
    assert (En : e = n) by lia. split; [lia|]. split; [lia|]. split; [lia|]. intros O. destruct (H8 O) as (W0 & W1 & W2).
    split; [exact W0|]. intros q k Hq Hk Hf. destruct (Z_lt_dec q p) as [l|l]; [apply (W2 q k); auto|].
    destruct (Z_lt_dec p 1) as [lp|lp]; [lia|]. destruct (W1 ltac:(lia)) as (_ & W). specialize (W En). lia.
Qed.

(** ** The search over the angles *)

(** the angles tried *)
Fixpoint angle_seq (start step : num) (k : nat) : num :=
  match k with O => start | S k => asub A (angle_seq start step k) step end.

Variable input : list point.
Variable range : num.
Definition ds_at (a : num) : list num := map (distance A (lsin L a) (lcos L a)) input.

(** [sort] returns, and its result has as many elements, none of which exceeds itself by
    [range] downwards. *)
Definition sort_fine (a : num) : Prop := exists ds, lsort L (ds_at a) = Ok ds /\ length ds = length input /\
  forall x, In x ds -> alt A (aadd A range x) x = false.

(** [c] is the number of points in the best strip at [a] and [avg] the middle of it *)
Definition strip_at (a : num) (ds : list num) (i c : Z) : Prop :=
  lsort L (ds_at a) = Ok ds /\ 0 <= i /\ 1 <= c /\ i + c <= Z.of_nat (length ds) /\
    (ordered_by range ds ->
     (forall k, i <= k < i + c -> alt A (aadd A range (at_ ds i)) (at_ ds k) = false) /\
     (forall p k, 0 <= p <= k -> k < Z.of_nat (length ds) -> alt A (aadd A range (at_ ds p)) (at_ ds k) = false -> k + 1 - p <= c)).
Definition middle (ds : list num) (i c : Z) : num :=
  adiv A (aadd A (at_ ds (i + c - 1)) (at_ ds i)) (aZ A 2).

Hypothesis Hlen : 1 <= Z.of_nat (length input) < W64.

Lemma try_angle_ok id a bid hi avg : sort_fine a ->
  exists ds i c, strip_at a ds i c /\
    (try_angle A L input range id a (bid, hi, avg) = Ok (id, c, middle ds i c) /\ hi <= c \/
     try_angle A L input range id a (bid, hi, avg) = Ok (bid, hi, avg) /\ c <= hi).
Proof.
  intros (ds & Es & El & Hx). assert (Hl : 1 <= Z.of_nat (length ds) < W64) by (rewrite El; exact Hlen).
  destruct (best_strip_ok range ds Hl Hx) as (i & c & E & H1 & H2 & H3 & H4).
  exists ds, i, c. split; [split; auto|]. unfold try_angle. fold (ds_at a). rewrite Es. cbn [bind]. rewrite E. cbn [bind].
  destruct (Z.leb_spec hi c); [|right; split; [reflexivity|lia]].
  rewrite (u64_small (i + c)) by lia. rewrite u64_small by lia.
  rewrite (lrd_ok ds (i + c - 1) (aZ A 0)), (lrd_ok ds i (aZ A 0)) by lia. cbn [bind]. fold (middle ds i c).
  destruct (_ || _) eqn:D; [left; auto|right]. split; [reflexivity|]. apply orb_false_iff in D. lia.
Qed.

Lemma search_ok a0 step n : 0 <= n < INT_MAX ->
  let start := aopp A (asub A a0 (amul A step (aZ A n))) in
  (forall k, 0 <= k <= 2 * n -> sort_fine (angle_seq start step (Z.to_nat k))) ->
  exists bid hi ds i, search A L input a0 step range n = Ok (bid, hi, middle ds i hi) /\ - n <= bid <= n /\
    strip_at (angle_seq start step (Z.to_nat (bid + n))) ds i hi /\
    (forall id, - n <= id <= n -> exists ds' i' c', strip_at (angle_seq start step (Z.to_nat (id + n))) ds' i' c' /\ c' <= hi).
Proof.
  intros Hn start Hf. unfold search. fold start.
  set (seq := fun id => angle_seq start step (Z.to_nat (id + n))).
  match goal with |- context [loop ?fu ?cc ?bb ?ss] =>
    destruct (loop_rule (fun s : Z * num * (Z * Z * num) => let '(id, val, (bid, hi, avg)) := s in
        - n <= id <= n + 1 /\ val = seq id /\
        (id = - n -> hi = 0) /\
        (- n < id -> - n <= bid < id /\ exists ds i, avg = middle ds i hi /\ strip_at (seq bid) ds i hi) /\
        (forall id', - n <= id' < id -> exists ds' i' c', strip_at (seq id') ds' i' c' /\ c' <= hi))
      (fun s => n + 1 - fst (fst s)) cc bb) with (fuel := fu) (s := ss) as ([[id val] [[bid hi] avg]] & E & (H1 & H2 & H3 & H4 & H5) & C) end.
  - intros [[id val] [[bid hi] avg]] (H & _). cbn [fst]. lia.
  - intros [[id val] [[bid hi] avg]] (H1 & -> & H3 & H4 & H5) C. cbn [fst] in *. assert (Hid : id <= n) by lia.
    assert (Sf : sort_fine (seq id)) by (apply Hf; lia).
    assert (Enext : seq (id + 1) = asub A (seq id) step).
    { unfold seq. replace (Z.to_nat (id + 1 + n)) with (S (Z.to_nat (id + n))) by lia. reflexivity. }
    destruct (try_angle_ok id (seq id) bid hi avg Sf) as (ds & i & c & St & [(E & Hc)|(E & Hc)]);
      rewrite E; cbn [bind]; (destruct (Z.eqb_spec id INT_MAX); [lia|]); eexists; (split; [reflexivity|]); cbn [fst]; (split; [|lia]).
    + split; [lia|]. split; [auto|]. split; [lia|]. split; [intros _; split; [lia|exists ds, i; auto]|].
      intros id' Hid'. destruct (Z.eq_dec id' id) as [->|]; [exists ds, i, c; split; [exact St|lia]|].
      destruct (H5 id') as (ds' & i' & c' & S' & Hc'); [lia|]. exists ds', i', c'. split; [exact S'|lia].
    + split; [lia|]. split; [auto|]. split; [lia|].
      assert (Hne : - n < id). { destruct (Z.eq_dec id (- n)) as [e|]; [|lia]. rewrite (H3 e) in Hc. destruct St as (_ & _ & St & _). lia. }
      split; [intros _; destruct (H4 Hne) as (Hb & Hr); split; [lia|exact Hr]|].
      intros id' Hid'. destruct (Z.eq_dec id' id) as [->|]; [exists ds, i, c; split; [exact St|lia]|].
      destruct (H5 id') as (ds' & i' & c' & S' & Hc'); [lia|]. exists ds', i', c'. split; [exact S'|lia].
  - split; [lia|]. split; [unfold seq; replace (Z.to_nat (- n + n)) with O by lia; reflexivity|]. split; [auto|]. split; [lia|]. intros; lia.
  - cbn [fst]. unfold fuel_of. lia.
  - rewrite E. cbn [bind snd]. assert (Ei : id = n + 1) by lia. destruct H4 as (Hb & ds & i & -> & St); [lia|].
    exists bid, hi, ds, i. split; [reflexivity|]. split; [lia|]. split; [exact St|]. intros id' Hid'. apply H5. lia.
Qed.
End HOUGH.

(** ** The partition *)

Lemma partition_filter {X} (off : X -> bool) (l : list X) : forall a b,
  fold_left (fun out p => if off p then (fst out, snd out ++ [p]) else (fst out ++ [p], snd out)) l (a, b)
  = (a ++ filter (fun p => negb (off p)) l, b ++ filter off l).
Proof.
  induction l as [|p l IH]; intros a b; cbn [fold_left filter]; [rewrite !app_nil_r; reflexivity|].
  destruct (off p); cbn [negb fst snd]; rewrite IH, <- app_assoc; reflexivity.
Qed.
