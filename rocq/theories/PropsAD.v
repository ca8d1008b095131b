(** Property C171: DisplayHistogram. *)
From Coq Require Import ZArith List Bool Lia.
From Verif Require Import Base Image Spec BaseProofs Edge LightProofs Chart.
Import ListNotations.
Open Scope Z_scope.

Ltac Zify.zify_post_hook ::= idtac.

(** ** Specification *)
(** [v] is the smallest, the largest value of a vector. *)
Definition smallest (l : list Z) (v : Z) : Prop := In v l /\ forall x, In x l -> v <= x.
Definition largest (l : list Z) (v : Z) : Prop := In v l /\ forall x, In x l -> x <= v.
Definition counts (l : list Z) : Prop := Forall (fun v => 0 <= v < W32) l.
(** The pixel (x, y) of a diagram of 100 rows whose column [x] is [top x] pixels high. *)
Definition diagram (top : Z -> Z) (x y : Z) : Z := if 100 - top x <=? y then 255 else 0.
(** [call] shows the diagram and changes no other block. *)
Definition shows (call : res mem (mem * option image)) (m : mem) (ib n : Z) (top : Z -> Z) : Prop :=
  exists m' im, call = Ok (m', Some im) /\ iw im = n /\ ih im = 100 /\ icc im = 1 /\ wf m' im /\
    (forall x y, 0 <= x < n -> 0 <= y < 100 -> pixel m' im x y 0 = diagram top x y) /\ forall b, b <> ib -> m' b = m b.
Definition C171_claim : Prop := forall hist m ib lo hi, counts hist -> 100 * Z.of_nat (length hist) < W32 -> smallest hist lo -> largest hist hi -> lo < hi ->
  shows (DisplayHistogram hist m ib) m ib (Z.of_nat (length hist)) (fun x => (nth (Z.to_nat x) hist 0 - lo) * 100 / (hi - lo)).

Lemma fold_min l : forall a, smallest (a :: l) (fold_left Z.min l a).
Proof.
  induction l as [|x l IH]; intros a; cbn [fold_left].
  - split; [left; reflexivity|]. intros y [->|[]]. lia.
  - destruct (IH (Z.min a x)) as [I1 I2]. pose proof (I2 (Z.min a x) (or_introl eq_refl)) as I3. split.
    + destruct I1 as [E|I1]; [|right; right; exact I1]. rewrite <- E. destruct (Z.min_spec a x) as [[_ ->]|[_ ->]]; [left|right; left]; reflexivity.
    + intros y [->|[->|Hy]]; [lia|lia|]. apply I2. right. exact Hy.
Qed.
Lemma fold_max l : forall a, largest (a :: l) (fold_left Z.max l a).
Proof.
  induction l as [|x l IH]; intros a; cbn [fold_left].
  - split; [left; reflexivity|]. intros y [->|[]]. lia.
  - destruct (IH (Z.max a x)) as [I1 I2]. pose proof (I2 (Z.max a x) (or_introl eq_refl)) as I3. split.
    + destruct I1 as [E|I1]; [|right; right; exact I1]. rewrite <- E. destruct (Z.max_spec a x) as [[_ ->]|[_ ->]]; [right; left|left]; reflexivity.
    + intros y [->|[->|Hy]]; [lia|lia|]. apply I2. right. exact Hy.
Qed.
Lemma elements hist lo hi : smallest hist lo -> largest hist hi -> min_element hist = Ok lo /\ max_element hist = Ok hi.
Proof.
  destruct hist as [|a l]; [intros [[] _]|]. intros [S1 S2] [L1 L2]. destruct (fold_min l a) as [M1 M2]. destruct (fold_max l a) as [N1 N2]. cbn.
  split; f_equal; apply Z.le_antisymm; auto.
Qed.

(** One column of height [t]. *)
Lemma column_ok ib w n x m : 0 <= x < w -> 0 <= n <= 100 -> len m ib = 100 * w ->
  exists m', draw_column w n (ib, 99 * w + x) m = Ok m' /\ len m' ib = 100 * w /\ (forall b, b <> ib -> m' b = m b) /\
    forall i y, 0 <= i < w -> 0 <= y < 100 -> get m' (ib, y * w + i) = if (i =? x) && (100 - n <=? y) then 255 else get m (ib, y * w + i).
Proof.
  intros Hx Hn Hl. unfold draw_column.
  destruct (@iterM_inv mem mem (fun k m' => len m' ib = 100 * w /\ (forall b, b <> ib -> m' b = m b) /\
      forall i y, 0 <= i < w -> 0 <= y < 100 -> get m' (ib, y * w + i) = if (i =? x) && (100 - k <=? y) then 255 else get m (ib, y * w + i))
    (fun y m => store m (padd (ib, 99 * w + x) (- (y * w))) 255) (Z.to_nat n) 0 m) as (m' & E & I).
  - split; [exact Hl|]. split; [reflexivity|]. intros i y Hi Hy. assert (C : (i =? x) && (100 - 0 <=? y) = false) by lia. rewrite C. reflexivity.
  - intros k t Hk (L & O & V). rewrite Z2Nat.id in Hk by lia. unfold padd. cbn [fst snd].
    replace (99 * w + x + - (k * w)) with ((99 - k) * w + x) by lia.
    rewrite store_ok by (apply inb_iff; cbn [fst snd]; rewrite L; nia). eexists. split; [reflexivity|].
    split; [rewrite len_upd; exact L|]. split.
    + intros b Hb. unfold upd. cbn [fst]. apply Z.eqb_neq in Hb. rewrite Hb. apply O. lia.
    + intros i y Hi Hy. rewrite get_upd. unfold ptr_eqb. cbn [fst snd]. rewrite Z.eqb_refl. cbn [andb].
      destruct (Z.eqb_spec (y * w + i) ((99 - k) * w + x)) as [E|E].
      * apply flat_inj in E; [|lia|lia]. destruct E as [-> ->]. assert (C : (x =? x) && (100 - (k + 1) <=? 99 - k) = true) by lia. rewrite C. reflexivity.
      * rewrite V by assumption. assert (C : (i =? x) && (100 - (k + 1) <=? y) = (i =? x) && (100 - k <=? y)).
        { assert (~ (i = x /\ y = 99 - k)) by (intros [-> ->]; apply E; reflexivity). lia. }
        rewrite C. reflexivity.
  - exists m'. rewrite Z2Nat.id in I by lia. split; [exact E|]. exact I.
Qed.

(** The columns are drawn with the heights the code computes. *)
Lemma drawn hist m ib lo hi : counts hist -> 100 * Z.of_nat (length hist) < W32 -> smallest hist lo -> largest hist hi -> lo < hi ->
  (forall v, In v hist -> 0 <= column_limit lo (u32 (hi - lo)) v <= 100) ->
  shows (DisplayHistogram hist m ib) m ib (Z.of_nat (length hist)) (fun x => column_limit lo (u32 (hi - lo)) (nth (Z.to_nat x) hist 0)).
Proof.
  intros Hc Hs Lo Hi Hlt Lim. unfold shows, DisplayHistogram. destruct (elements hist lo hi Lo Hi) as [E1 E2].
  destruct hist as [|a l] eqn:El; [destruct Lo as [[] _]|]. rewrite <- El in *. rewrite E1, E2. cbn [bind].
  assert (C : (hi <=? lo) = false) by lia. rewrite C. set (n := Z.of_nat (length hist)) in *. assert (Hn : 0 < n) by (unfold n; rewrite El; cbn [length]; lia).
  rewrite (u32_small n) by lia. rewrite (u32_small ((100 - 1) * n)) by lia.
  set (m0 := fun b => if b =? ib then mkBlock (100 * n) (fun _ => 0) else m b).
  match goal with |- context [iterM _ 0 ?G ?s] => destruct (@iterM_inv mem mem (fun k m' => len m' ib = 100 * n /\ (forall b, b <> ib -> m' b = m b) /\
      forall i y, 0 <= i < n -> 0 <= y < 100 -> get m' (ib, y * n + i) =
        if i <? k then diagram (fun x => column_limit lo (u32 (hi - lo)) (nth (Z.to_nat x) hist 0)) i y else 0) G (length hist) 0 s) as (m' & E & I) end.
  - split; [unfold len, m0; rewrite Z.eqb_refl; reflexivity|]. split; [intros b Hb; unfold m0; apply Z.eqb_neq in Hb; rewrite Hb; reflexivity|].
    intros i y Hi' Hy. assert (Ci : (i <? 0) = false) by lia. rewrite Ci. unfold get, m0. cbn [fst snd]. rewrite Z.eqb_refl. reflexivity.
  - intros k t Hk (L & O & V). cbv beta. unfold vnth. fold n. assert (Ck : (0 <=? k) && (k <? n) = true) by (unfold n; lia). rewrite Ck. cbn [bind]. set (v := nth (Z.to_nat k) hist 0).
    assert (Hv : In v hist) by (apply nth_In; unfold n in *; lia).
    unfold padd. cbn [fst snd]. replace ((100 - 1) * n + k) with (99 * n + k) by lia.
    destruct (column_ok ib n (column_limit lo (u32 (hi - lo)) v) k t) as (t' & Et & Lt & Ot & Vt); [unfold n; lia|apply Lim, Hv|exact L|].
    exists t'. split; [exact Et|]. split; [exact Lt|]. split; [intros b Hb; rewrite Ot, O by exact Hb; reflexivity|].
    intros i y Hi' Hy. rewrite Vt, V by assumption. destruct (Z.eqb_spec i k) as [->|N].
    + assert (C1 : (k <? k) = false) by lia. assert (C2 : (k <? k + 1) = true) by lia. rewrite C1, C2. cbn [andb]. unfold diagram. fold v. reflexivity.
    + cbn [andb]. assert (Ci : (i <? k + 1) = (i <? k)) by lia. rewrite Ci. reflexivity.
  - rewrite E. cbn [bind]. replace (0 + Z.of_nat (length hist)) with n in I by (unfold n; lia). destruct I as (L & O & V).
    eexists. eexists. split; [reflexivity|]. cbn [iw ih icc]. split; [reflexivity|]. split; [reflexivity|]. split; [reflexivity|]. split; [|split; [|exact O]].
    + split; cbn [idata iw ih icc irs ibase fst snd]; unfold ibase; cbn [idata fst snd]; rewrite ?L; unfold W32 in *; first [discriminate|lia].
    + intros x y Hx Hy. assert (P : pixel m' (mkImage n 100 1 1 n (Some (ib, 0)) 0) x y 0 = get m' (ib, y * n + x)) by (unfold pixel, px, padd, ibase; cbn [idata irs icc fst snd]; f_equal; f_equal; lia).
      rewrite P, V by assumption. assert (Ci : (x <? n) = true) by lia. rewrite Ci. reflexivity.
Qed.
Lemma limit_ok lo hi v : 0 <= lo -> lo <= v <= hi -> hi < W32 -> lo < hi -> 0 <= column_limit lo (u32 (hi - lo)) v <= 100.
Proof.
  intros Hl Hv Hh Hlt. unfold column_limit. rewrite (u32_small (hi - lo)), (u32_small (v - lo)) by lia. set (r := hi - lo) in *. pose proof (u32_range ((v - lo) * 100)) as U.
  split; [apply Z.div_pos; unfold r; lia|]. destruct (Z_lt_ge_dec (r * 100) W32) as [S|S].
  - rewrite u32_small by (unfold r in *; lia). apply Z.div_le_upper_bound; unfold r in *; lia.
  - apply Z.div_le_upper_bound; unfold r in *; lia.
Qed.
(** Nothing outside the image is written, for all counts. *)
Theorem C171_safe hist m ib lo hi : counts hist -> 100 * Z.of_nat (length hist) < W32 -> smallest hist lo -> largest hist hi -> lo < hi ->
  exists top, shows (DisplayHistogram hist m ib) m ib (Z.of_nat (length hist)) top /\ forall x, 0 <= x < Z.of_nat (length hist) -> 0 <= top x <= 100.
Proof.
  intros Hc Hs Lo Hi Hlt. unfold counts in Hc. rewrite Forall_forall in Hc. pose proof (Hc _ (proj1 Lo)) as Blo. pose proof (Hc _ (proj1 Hi)) as Bhi.
  assert (Lim : forall v, In v hist -> 0 <= column_limit lo (u32 (hi - lo)) v <= 100).
  { intros v Hv. apply limit_ok; [lia|split; [apply Lo, Hv|apply Hi, Hv]|lia|lia]. }
  eexists. split; [apply (drawn hist m ib lo hi); try assumption; apply Forall_forall; exact Hc|]. intros x Hx. cbv beta. apply Lim, nth_In. lia.
Qed.
(** The heights are the claimed ones if 100 times the range fits into 32 bits. *)
Theorem C171_heights_partial hist m ib lo hi : counts hist -> 100 * Z.of_nat (length hist) < W32 -> smallest hist lo -> largest hist hi -> lo < hi ->
  (hi - lo) * 100 < W32 ->
  shows (DisplayHistogram hist m ib) m ib (Z.of_nat (length hist)) (fun x => (nth (Z.to_nat x) hist 0 - lo) * 100 / (hi - lo)).
Proof.
  intros Hc Hs Lo Hi Hlt Hr. unfold counts in Hc. rewrite Forall_forall in Hc. pose proof (Hc _ (proj1 Lo)) as Blo. pose proof (Hc _ (proj1 Hi)) as Bhi.
  assert (Lim : forall v, In v hist -> 0 <= column_limit lo (u32 (hi - lo)) v <= 100).
  { intros v Hv. apply limit_ok; [lia|split; [apply Lo, Hv|apply Hi, Hv]|lia|lia]. }
  assert (D : shows (DisplayHistogram hist m ib) m ib (Z.of_nat (length hist)) (fun x => column_limit lo (u32 (hi - lo)) (nth (Z.to_nat x) hist 0)))
    by (apply (drawn hist m ib lo hi); try assumption; apply Forall_forall; exact Hc).
  destruct D as (m' & im & E & Ew & Eh & Ec & Wf & P & O). exists m', im. repeat (split; [assumption|]). split; [|exact O].
  intros x y Hx Hy. rewrite P by assumption. unfold diagram, column_limit. set (v := nth (Z.to_nat x) hist 0).
  assert (Hv : In v hist) by (apply nth_In; lia). pose proof (proj2 Lo v Hv). pose proof (proj2 Hi v Hv).
  rewrite (u32_small (hi - lo)), (u32_small (v - lo)), u32_small by lia. reflexivity.
Qed.
(** A histogram of one value everywhere, or an empty one, is not shown. *)
Theorem C171_flat hist m ib : (forall a b, In a hist -> In b hist -> a = b) -> DisplayHistogram hist m ib = Ok (m, None).
Proof.
  intros H. destruct hist as [|a l]; [reflexivity|]. destruct (fold_min l a) as [M1 _]. destruct (fold_max l a) as [N1 _]. cbn.
  rewrite (H _ _ N1 M1), Z.leb_refl. reflexivity.
Qed.
(** 50000000 times 100 does not fit: the highest column is 14 pixels high. *)
Theorem C171_heights_refuted : ~ C171_claim.
Proof.
  intros H. destruct (H [0; 50000000] (fun _ => mkBlock 0 (fun _ => 0)) 1 0 50000000) as (m' & im & E & _ & _ & _ & _ & P & _).
  - repeat constructor; unfold W32; lia.
  - cbn; unfold W32; lia.
  - split; [left; reflexivity|]. intros x [<-|[<-|[]]]; lia.
  - split; [right; left; reflexivity|]. intros x [<-|[<-|[]]]; lia.
  - lia.
  - assert (C : match DisplayHistogram [0; 50000000] (fun _ => mkBlock 0 (fun _ => 0)) 1 with
                | Ok (m', Some im) => pixel m' im 1 0 0 =? 0 | _ => false end = true) by (vm_compute; reflexivity).
    rewrite E in C. apply Z.eqb_eq in C. rewrite P in C by (cbn [length]; lia). vm_compute in C. discriminate C.
Qed.
Example C171_case : counts [3; 7; 5] /\ 100 * Z.of_nat (length [3; 7; 5]) < W32 /\ smallest [3; 7; 5] 3 /\ largest [3; 7; 5] 7 /\ (7 - 3) * 100 < W32 /\
  match DisplayHistogram [3; 7; 5] (fun _ => mkBlock 0 (fun _ => 0)) 1 with
  | Ok (m', Some im) => map (fun x => map (fun y => pixel m' im x y 0) [0; 49; 50; 99]) [0; 1; 2] = [[0; 0; 0; 0]; [255; 255; 255; 255]; [0; 0; 255; 255]]
  | _ => False end.
Proof.
  split; [repeat constructor; unfold W32; lia|]. split; [reflexivity|]. split; [split; [left; reflexivity|]; intros x [<-|[<-|[<-|[]]]]; lia|].
  split; [split; [right; left; reflexivity|]; intros x [<-|[<-|[<-|[]]]]; lia|]. split; [reflexivity|]. vm_compute. reflexivity.
Qed.
Print Assumptions C171_safe.
Print Assumptions C171_heights_partial.
Print Assumptions C171_flat.
Print Assumptions C171_heights_refuted.
