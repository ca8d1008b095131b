(** Properties C150 to C154: the memory allocators of CUDA and OpenCL devices, and the
    alignment of the memory of the allocators. *)
From Coq Require Import ZArith List Bool Lia Sorted.
From Verif Require Import Base BaseProofs Alloc AllocProofs DevMem DevMemProofs PropsD.
Import ListNotations.
Open Scope Z_scope.

(** ** Histories of OpenCL memory *)
(** What a program and the OpenCL library may do: sizes are in range, the handle of new memory
    is not one the program holds, only handles the program holds are freed.  [strict]: memory is
    freed while the device is active that was active when it was allocated. *)
Definition oop_ok (strict : Prop) (st : ocl) (o : oop) : Prop :=
  match o with
  | OReserve _ size _ => 0 <= size
  | OAlloc n sz ans => 0 <= n /\ 0 < sz /\ n * sz < 2 ^ 63 /\ forall h, ans = Some h -> ~ In h (map fst (oHeld st))
  | OFree h => In h (map fst (oHeld st)) /\ (strict -> forall x, In (h, x) (oHeld st) -> mDev x = oActive st)
  | OActive _ => True
  end.
Fixpoint oops_ok (strict : Prop) (st : ocl) (ops : list oop) : Prop :=
  match ops with
  | [] => True
  | o :: t => oop_ok strict st o /\
      forall st', (ostep st o = Ok st' \/ ostep st o = Throw st') -> oops_ok strict st' t
  end.
(** Devices: less than 2^63 bytes, an alignment that is a power of two and fits in cl_uint *)
Definition odevs_ok (avail align : Z -> Z) (k : Z -> nat) : Prop :=
  forall dev, avail dev < 2 ^ 63 /\ align dev = 2 ^ Z.of_nat (k dev) /\ (k dev < 32)%nat.

Record oinv (strict : Prop) (k : Z -> nat) (av : Z -> Z) (lost : Z -> list (Z * nat)) (st : ocl) : Prop := mkOinv {
  i_min : forall dev, oaMin (oDev st dev) = 2 ^ Z.of_nat (k dev) /\ (k dev < 32)%nat;
  i_av : forall dev, oaAvail (oDev st dev) = av dev /\ av dev < 2 ^ 63;
  i_none : forall dev, oaData (oDev st dev) = false -> oaMap (oDev st dev) = [];
  i_arena : forall dev, oaData (oDev st dev) = true ->
    wok (k dev) (oaSize (oDev st dev)) (oaFc (oDev st dev)) (map snd (oaMap (oDev st dev)) ++ lost dev);
  i_keys : forall dev, NoDup (map fst (oaMap (oDev st dev)));
  i_nodup : NoDup (map fst (oHeld st));
  i_sub : forall h dev o n, In (h, mkObj dev (Some o) n) (oHeld st) ->
    In h (map fst (oaMap (oDev st dev))) /\
    exists L, In (o, L) (map snd (oaMap (oDev st dev)) ++ lost dev) /\ n <= 2 ^ Z.of_nat L;
  i_own : forall dev h o L h' n', In (h, (o, L)) (oaMap (oDev st dev)) ->
    In (h', mkObj dev (Some o) n') (oHeld st) -> h' = h;
  i_dist : forall dev o h n h' n', In (h, mkObj dev (Some o) n) (oHeld st) ->
    In (h', mkObj dev (Some o) n') (oHeld st) -> h = h';
  i_strict : strict -> forall dev, lost dev = [] /\
    forall h c, In (h, c) (oaMap (oDev st dev)) -> exists x, In (h, x) (oHeld st) /\ mDev x = dev
}.

Lemma oinv_new strict avail align k : odevs_ok avail align k -> oinv strict k avail (fun _ => []) (ocl_new avail align).
Proof.
  intros H. constructor; cbn; try discriminate; try contradiction.
  - intros dev. destruct (H dev) as (_ & -> & ?). auto.
  - intros dev. split; [reflexivity|]. apply H.
  - reflexivity.
  - intros dev. constructor.
  - constructor.
  - intros _ dev. split; [reflexivity|]. intros h c [].
Qed.
Lemma oinv_data strict k av lost st h dev o n : oinv strict k av lost st -> In (h, mkObj dev (Some o) n) (oHeld st) ->
  oaData (oDev st dev) = true.
Proof.
  intros V Hi. destruct (oaData (oDev st dev)) eqn:E; [reflexivity|]. exfalso.
  destruct (i_sub _ _ _ _ _ V h dev o n Hi) as (Hk & _). rewrite (i_none _ _ _ _ _ V dev E) in Hk. contradiction.
Qed.
Lemma nodup_key {A} (l : list (Z * A)) h x y : NoDup (map fst l) -> In (h, x) l -> In (h, y) l -> x = y.
Proof.
  induction l as [|[a b] t IH]; intros Hn Hx Hy; [contradiction|]. cbn [map fst] in Hn. inversion Hn as [|? ? H1 H2]; subst.
  destruct Hx as [Hx|Hx], Hy as [Hy|Hy].
  - congruence.
  - injection Hx as -> ->. destruct H1. apply in_map_iff. exists (h, y). auto.
  - injection Hy as -> ->. destruct H1. apply in_map_iff. exists (h, x). auto.
  - auto.
Qed.
Lemma existsb_key {A} (l : list (Z * A)) h : existsb (fun x => fst x =? h) l = true <-> In h (map fst l).
Proof.
  rewrite existsb_exists, in_map_iff. split.
  - intros (x & Hx & E). apply Z.eqb_eq in E. exists x. auto.
  - intros (x & E & Hx). exists x. split; [exact Hx|]. apply Z.eqb_eq. exact E.
Qed.
Lemma existsb_key_false {A} (l : list (Z * A)) h : ~ In h (map fst l) -> existsb (fun x => fst x =? h) l = false.
Proof. intros H. destruct (existsb _ l) eqn:E; [|reflexivity]. apply existsb_key in E. contradiction. Qed.
Lemma In_drop {A} (l : list (Z * A)) h x : In x (filter (fun y => negb (fst y =? h)) l) <-> In x l /\ fst x <> h.
Proof. rewrite filter_In, negb_true_iff, Z.eqb_neq. reflexivity. Qed.
Lemma In_drop_key {A} (l : list (Z * A)) h g : In g (map fst (filter (fun y => negb (fst y =? h)) l)) <-> In g (map fst l) /\ g <> h.
Proof.
  rewrite !in_map_iff. split.
  - intros (x & E & Hx). apply In_drop in Hx as [Hx N]. subst g. split; [exists x; auto|exact N].
  - intros ((x & E & Hx) & N). exists x. split; [exact E|]. apply In_drop. subst g. auto.
Qed.
(** Dropping the entry of a handle is dropping its chunk. *)
Lemma drop_chunk (m : list (Z * (Z * nat))) h o L : NoDup (map fst m) -> NoDup (map fst (map snd m)) -> In (h, (o, L)) m ->
  map snd (filter (fun x => negb (fst x =? h)) m) = filter (fun c => negb (fst c =? o)) (map snd m).
Proof.
  assert (G1 : forall q : list (Z * (Z * nat)), ~ In h (map fst q) -> filter (fun x => negb (fst x =? h)) q = q).
  { induction q as [|x t IH]; intros H; cbn; [reflexivity|]. destruct (Z.eqb_spec (fst x) h) as [E|N]; [cbn in H; tauto|].
    cbn. f_equal. apply IH. cbn in H. tauto. }
  assert (G2 : forall q : list (Z * nat), ~ In o (map fst q) -> filter (fun c => negb (fst c =? o)) q = q).
  { induction q as [|x t IH]; intros H; cbn; [reflexivity|]. destruct (Z.eqb_spec (fst x) o) as [E|N]; [cbn in H; tauto|].
    cbn. f_equal. apply IH. cbn in H. tauto. }
  induction m as [|[h1 [o1 L1]] t IH]; intros N1 N2 Hi; [contradiction|].
  cbn [map fst snd] in N1, N2. inversion N1 as [|? ? A1 A2]; subst. inversion N2 as [|? ? B1 B2]; subst.
  cbn [filter map fst snd]. destruct Hi as [Hi|Hi].
  - injection Hi as -> -> ->. rewrite !Z.eqb_refl. cbn [negb]. rewrite G1, G2 by assumption. reflexivity.
  - assert (h1 <> h). { intros ->. apply A1. apply in_map_iff. exists (h, (o, L)). auto. }
    assert (o1 <> o). { intros ->. apply B1. rewrite map_map. apply in_map_iff. exists (h, (o, L)). auto. }
    destruct (Z.eqb_spec h1 h); [contradiction|]. destruct (Z.eqb_spec o1 o); [contradiction|]. cbn [negb map snd].
    f_equal. apply IH; assumption.
Qed.
Lemma NoDup_fst_app (a b : list (Z * nat)) : NoDup (map fst (a ++ b)) -> NoDup (map fst a) /\ forall o, In o (map fst a) -> ~ In o (map fst b).
Proof.
  rewrite map_app. induction a as [|x t IH]; cbn [map app]; intros H.
  - split; [constructor|]. intros o [].
  - inversion H as [|? ? H1 H2]; subst. destruct (IH H2) as (I1 & I2). split.
    + constructor; [|exact I1]. intros Hi. apply H1, in_or_app. auto.
    + intros o [<-|Ho] Hb; [apply H1, in_or_app; auto|exact (I2 o Ho Hb)].
Qed.
Lemma filter_none (l : list (Z * nat)) o : ~ In o (map fst l) -> filter (fun c => negb (fst c =? o)) l = l.
Proof.
  induction l as [|x t IH]; intros H; cbn; [reflexivity|]. destruct (Z.eqb_spec (fst x) o) as [E|N]; [cbn in H; tauto|].
  cbn. f_equal. apply IH. cbn in H. tauto.
Qed.

(** *** reserve *)
Lemma ostep_reserve strict k av lost st dev size ok : oinv strict k av lost st -> 0 <= size ->
  exists st', (cl_reserve st dev size ok = Ok st' \/ cl_reserve st dev size ok = Throw st') /\
    (exists lost', oinv strict k av lost' st') /\ oHeld st' = oHeld st /\ oActive st' = oActive st /\
    (oaMap (oDev st dev) = [] -> 0 < size <= oaAvail (oDev st dev) -> ok = true ->
      cl_reserve st dev size ok = Ok st' /\ oaSize (oDev st' dev) = size).
Proof.
  intros V Hs. unfold cl_reserve. destruct (Z.eqb_spec size 0) as [E0|N0]; cbn [negb].
  { exists st. split; [auto|]. split; [exists lost; exact V|]. repeat split; intros; lia. }
  destruct (Z.eqb_spec size (oaSize (oDev st dev))) as [E|N].
  { exists st. split; [auto|]. split; [exists lost; exact V|]. repeat split; auto. }
  destruct (Z.leb_spec size (oaAvail (oDev st dev))) as [Hav|Hav].
  2:{ exists st. split; [auto|]. split; [exists lost; exact V|]. repeat split; intros; lia. }
  destruct (oaMap (oDev st dev)) as [|e t] eqn:Em.
  2:{ exists st. split; [auto|]. split; [exists lost; exact V|]. repeat split; intros; discriminate. }
  assert (Hno : forall h o n, ~ In (h, mkObj dev (Some o) n) (oHeld st)).
  { intros h o n Hi. destruct (i_sub _ _ _ _ _ V h dev o n Hi) as (Hk & _). rewrite Em in Hk. contradiction. }
  pose proof (i_av _ _ _ _ _ V dev) as Hb.
  assert (G : forall c, oaMin c = oaMin (oDev st dev) -> oaAvail c = oaAvail (oDev st dev) -> oaMap c = [] ->
    (oaData c = true -> wok (k dev) (oaSize c) (oaFc c) []) ->
    oinv strict k av (fun j => if j =? dev then [] else lost j) (oset_dev st dev c)).
  { intros c C1 C2 C3 C4. constructor; unfold oset_dev; cbn [oDev oHeld].
    - intros d. destruct (Z.eqb_spec d dev) as [->|]; [rewrite C1|]; apply (i_min _ _ _ _ _ V).
    - intros d. destruct (Z.eqb_spec d dev) as [->|]; [rewrite C2|]; apply (i_av _ _ _ _ _ V).
    - intros d. destruct (Z.eqb_spec d dev) as [->|]; [auto|]; apply (i_none _ _ _ _ _ V).
    - intros d. destruct (Z.eqb_spec d dev) as [->|]; [|apply (i_arena _ _ _ _ _ V)]. rewrite C3. cbn [map app]. exact C4.
    - intros d. destruct (Z.eqb_spec d dev) as [->|]; [rewrite C3; constructor|]. apply (i_keys _ _ _ _ _ V).
    - apply (i_nodup _ _ _ _ _ V).
    - intros h d o n Hi. destruct (Z.eqb_spec d dev) as [->|]; [destruct (Hno h o n Hi)|]. apply (i_sub _ _ _ _ _ V h d o n Hi).
    - intros d h o L h' n'. destruct (Z.eqb_spec d dev) as [->|]; [rewrite C3; contradiction|]. apply (i_own _ _ _ _ _ V).
    - intros d o h n h' n'. apply (i_dist _ _ _ _ _ V).
    - intros S d. destruct (Z.eqb_spec d dev) as [->|]; [|apply (i_strict _ _ _ _ _ V S)]. split; [reflexivity|].
      rewrite C3. intros h c0 []. }
  destruct ok.
  - destruct (@wok_fill ocl (k dev) size) as (fc & Ef & W); [lia|]. rewrite Ef. cbn [bind].
    eexists. split; [left; reflexivity|]. split; [|split; [reflexivity|split; [reflexivity|]]].
    + exists (fun j => if j =? dev then [] else lost j).
      pose proof (G (mkOa true size fc [] (oaAvail (oDev st dev)) (oaMin (oDev st dev))) eq_refl eq_refl eq_refl (fun _ => W)) as V'.
      destruct V' as [v1 v2 v3 v4 v5 v6 v7 v8 v9 v10].
      constructor; unfold oset_dev in *; cbn [oDev oHeld] in *.
      * intros d. specialize (v1 d). destruct (d =? dev); exact v1.
      * intros d. specialize (v2 d). destruct (d =? dev); exact v2.
      * intros d. specialize (v3 d). destruct (d =? dev); exact v3.
      * intros d. specialize (v4 d). destruct (d =? dev); exact v4.
      * intros d. specialize (v5 d). destruct (d =? dev); exact v5.
      * exact v6.
      * intros h d o n Hi. specialize (v7 h d o n Hi). destruct (d =? dev); exact v7.
      * intros d h o L h' n'. specialize (v8 d h o L h' n'). destruct (d =? dev); exact v8.
      * exact v9.
      * intros S d. specialize (v10 S d). destruct (d =? dev); exact v10.
    + intros _ _ _. split; [reflexivity|]. cbn [oset_dev oDev]. rewrite Z.eqb_refl. reflexivity.
  - eexists. split; [right; reflexivity|]. split; [|split; [reflexivity|split; [reflexivity|discriminate]]].
    eexists. apply G; [reflexivity|reflexivity|reflexivity|discriminate].
Qed.

(** *** allocate *)
Lemma ostep_alloc strict k av lost st n sz ans : oinv strict k av lost st -> oop_ok strict st (OAlloc n sz ans) ->
  exists lost' st', oinv strict k av lost' st' /\ oActive st' = oActive st /\
    (((exists h, cl_allocate st n sz ans = Ok (st', h) /\ ans = Some h)) \/
     (cl_allocate st n sz ans = Throw st' /\ ans = None /\ oHeld st' = oHeld st)).
Proof.
  intros V (Hn & Hz & Hb & Hans). assert (0 <= n * sz) by nia. unfold cl_allocate.
  assert (Eu : u64 (n * sz) = n * sz) by (unfold u64; apply Z.mod_small; lia). rewrite Eu.
  set (dev := oActive st) in *. set (c := oDev st dev) in *.
  assert (Hbuf : exists lost' st', oinv strict k av lost' st' /\ oActive st' = dev /\
    (((exists h, (match ans with None => Throw st | Some h => Ok (oset_held st ((h, mkObj dev None (n * sz)) :: oHeld st), h) end) = @Ok ocl _ (st', h) /\ ans = Some h)) \/
     ((match ans with None => Throw st | Some h => Ok (oset_held st ((h, mkObj dev None (n * sz)) :: oHeld st), h) end) = @Throw ocl (ocl * Z) st' /\ ans = None /\ oHeld st' = oHeld st))).
  { destruct ans as [h|].
    - exists lost. eexists. split; [|split; [|left; exists h; split; reflexivity]]; [|reflexivity].
      specialize (Hans h eq_refl). constructor; unfold oset_held; cbn [oDev oHeld]; try apply V.
      + cbn [map fst]. constructor; [exact Hans|apply (i_nodup _ _ _ _ _ V)].
      + intros g d o b [E|Hi]; [discriminate|]. apply (i_sub _ _ _ _ _ V g d o b Hi).
      + intros d g o L h' n' Hm [E|Hi]; [discriminate|]. apply (i_own _ _ _ _ _ V d g o L h' n' Hm Hi).
      + intros d o g b h' n' [E|Hi] [E'|Hi']; try discriminate. apply (i_dist _ _ _ _ _ V d o g b h' n' Hi Hi').
      + intros S d. destruct (i_strict _ _ _ _ _ V S d) as (S1 & S2). split; [exact S1|]. intros g c0 Hg.
        destruct (S2 g c0 Hg) as (x & Hx & Ex). exists x. split; [right; exact Hx|exact Ex].
    - exists lost, st. split; [exact V|]. split; [reflexivity|]. right. auto. }
  destruct (oaData c) eqn:Ed; cbn [andb]; [|exact Hbuf].
  destruct (Z.ltb_spec (n * sz) (oaSize c)) as [Hlt|Hge]; [|exact Hbuf].
  destruct (i_min _ _ _ _ _ V dev) as (Emin & Hk). fold c in Emin.
  assert (Hk32 : 2 ^ Z.of_nat (k dev) <= 2 ^ 31) by (apply Z.pow_le_mono_r; lia).
  pose proof (pow_pos (k dev)) as Hkp.
  set (req := if n * sz <? oaMin c then oaMin c else n * sz).
  assert (Hreq : 2 ^ Z.of_nat (k dev) <= req /\ n * sz <= req /\ req <= 2 ^ 63).
  { unfold req. destruct (Z.ltb_spec (n * sz) (oaMin c)); lia. }
  destruct (@getAllocationLevel_ok ocl req) as (lv & -> & Hlv & _ & _); [lia|]. cbn [bind].
  assert (Hml : (k dev <= lv)%nat).
  { destruct (Nat.le_gt_cases (k dev) lv) as [G|G]; [exact G|].
    pose proof (Z.pow_lt_mono_r 2 (Z.of_nat lv) (Z.of_nat (k dev)) ltac:(lia) ltac:(lia) ltac:(lia)). lia. }
  pose proof (i_arena _ _ _ _ _ V dev Ed) as W. fold c in W.
  destruct (@wok_take ocl _ _ _ _ lv W Hml) as [(o & fc1 & fc2 & Et & W1 & W2 & Nf)|Et]; rewrite Et; cbn [bind]; [|exact Hbuf].
  assert (Hal : sub_aligned c o = true).
  { unfold sub_aligned. rewrite Emin. apply Z.eqb_eq. apply Z.mod_divide; [lia|].
    apply Z.divide_mul_l. apply (w_al _ _ _ _ W2 o lv). left. reflexivity. }
  rewrite Hal. destruct ans as [h|].
  2:{ exists lost. eexists. split; [|split; [|right; split; [reflexivity|split; reflexivity]]]; [|reflexivity].
      constructor; unfold oset_dev; cbn [oDev oHeld].
      - intros d. destruct (Z.eqb_spec d dev) as [->|]; apply (i_min _ _ _ _ _ V).
      - intros d. destruct (Z.eqb_spec d dev) as [->|]; apply (i_av _ _ _ _ _ V).
      - intros d. destruct (Z.eqb_spec d dev) as [->|]; [discriminate|]; apply (i_none _ _ _ _ _ V).
      - intros d. destruct (Z.eqb_spec d dev) as [->|]; [|apply (i_arena _ _ _ _ _ V)]. intros _. exact W1.
      - intros d. destruct (Z.eqb_spec d dev) as [->|]; apply (i_keys _ _ _ _ _ V).
      - apply (i_nodup _ _ _ _ _ V).
      - intros g d o' b Hi. destruct (i_sub _ _ _ _ _ V g d o' b Hi) as (Q1 & Q2).
        destruct (Z.eqb_spec d dev) as [->|]; cbn [oaMap]; auto.
      - intros d g o' L h' n'. destruct (Z.eqb_spec d dev) as [->|]; apply (i_own _ _ _ _ _ V).
      - apply (i_dist _ _ _ _ _ V).
      - intros S d. destruct (Z.eqb_spec d dev) as [->|]; apply (i_strict _ _ _ _ _ V S). }
  specialize (Hans h eq_refl).
  (* a held sub-buffer of this device is not at the new offset; nor is an entry *)
  assert (Nh : forall g b, ~ In (g, mkObj dev (Some o) b) (oHeld st)).
  { intros g b Hi. destruct (i_sub _ _ _ _ _ V g dev o b Hi) as (_ & L & HL & _). fold c in HL. apply Nf.
    apply in_map_iff. exists (o, L). auto. }
  assert (Ne : forall g L, ~ In (g, (o, L)) (oaMap c)).
  { intros g L Hi. apply Nf. apply in_map_iff. exists (o, L). split; [reflexivity|]. apply in_or_app. left.
    apply in_map_iff. exists (g, (o, L)). auto. }
  destruct (existsb (fun x => fst x =? h) (oaMap c)) eqn:Ex.
  - apply existsb_key in Ex.
    exists (fun j => if j =? dev then (o, lv) :: lost j else lost j). eexists.
    split; [|split; [|left; exists h; split; reflexivity]]; [|reflexivity].
    constructor; unfold oset_held, oset_dev; cbn [oDev oHeld].
    + intros d. destruct (Z.eqb_spec d dev) as [->|]; apply (i_min _ _ _ _ _ V).
    + intros d. destruct (Z.eqb_spec d dev) as [->|]; apply (i_av _ _ _ _ _ V).
    + intros d. destruct (Z.eqb_spec d dev) as [->|]; [discriminate|]; apply (i_none _ _ _ _ _ V).
    + intros d. destruct (Z.eqb_spec d dev) as [->|]; [|apply (i_arena _ _ _ _ _ V)]. intros _. cbn [oaSize oaFc oaMap].
      revert W2. apply wok_perm.
      * intros f. rewrite !totA_app. cbn [totA]. rewrite totA_app. lia.
      * intros x Hx. apply in_app_or in Hx as [Hx|[<-|Hx]]; [right; apply in_or_app; auto|left; reflexivity|right; apply in_or_app; auto].
    + intros d. destruct (Z.eqb_spec d dev) as [->|]; apply (i_keys _ _ _ _ _ V).
    + cbn [map fst]. constructor; [exact Hans|apply (i_nodup _ _ _ _ _ V)].
    + intros g d o' b [E|Hi].
      * injection E as <- <- <- <-. rewrite Z.eqb_refl. cbn [oaMap]. split; [exact Ex|]. exists lv.
        split; [apply in_or_app; right; left; reflexivity|lia].
      * destruct (i_sub _ _ _ _ _ V g d o' b Hi) as (Q1 & L & Q2 & Q3). destruct (Z.eqb_spec d dev) as [->|]; cbn [oaMap].
        { split; [exact Q1|]. exists L. split; [|exact Q3]. apply in_app_or in Q2 as [Q2|Q2]; apply in_or_app; [auto|right; right; exact Q2]. }
        { split; [exact Q1|]. exists L. auto. }
    + intros d g o' L h' n' Hm [E|Hi].
      * injection E as <- <- <- <-. rewrite Z.eqb_refl in Hm. cbn [oaMap] in Hm. destruct (Ne g L Hm).
      * destruct (Z.eqb_spec d dev) as [->|]; cbn [oaMap] in Hm; apply (i_own _ _ _ _ _ V _ g o' L h' n' Hm Hi).
    + intros d o' g b h' n' [E|Hi] [E'|Hi'].
      * congruence.
      * injection E as <- <- <- <-. destruct (Nh h' n' Hi').
      * injection E' as <- <- <- <-. destruct (Nh g b Hi).
      * apply (i_dist _ _ _ _ _ V d o' g b h' n' Hi Hi').
    + intros S. exfalso. destruct (i_strict _ _ _ _ _ V S dev) as (_ & S2).
      apply in_map_iff in Ex as ([h0 c0] & E0 & Hx). cbn [fst] in E0. subst h0.
      destruct (S2 h c0 Hx) as (x & Hx' & _). apply Hans. apply in_map_iff. exists (h, x). auto.
  - assert (Ex' : ~ In h (map fst (oaMap c))) by (intros Hx; apply existsb_key in Hx; congruence).
    exists lost. eexists. split; [|split; [|left; exists h; split; reflexivity]]; [|reflexivity].
    constructor; unfold oset_held, oset_dev; cbn [oDev oHeld].
    + intros d. destruct (Z.eqb_spec d dev) as [->|]; apply (i_min _ _ _ _ _ V).
    + intros d. destruct (Z.eqb_spec d dev) as [->|]; apply (i_av _ _ _ _ _ V).
    + intros d. destruct (Z.eqb_spec d dev) as [->|]; [discriminate|]; apply (i_none _ _ _ _ _ V).
    + intros d. destruct (Z.eqb_spec d dev) as [->|]; [|apply (i_arena _ _ _ _ _ V)]. intros _. exact W2.
    + intros d. destruct (Z.eqb_spec d dev) as [->|]; [|apply (i_keys _ _ _ _ _ V)]. cbn [oaMap map fst].
      constructor; [exact Ex'|apply (i_keys _ _ _ _ _ V)].
    + cbn [map fst]. constructor; [exact Hans|apply (i_nodup _ _ _ _ _ V)].
    + intros g d o' b [E|Hi].
      * injection E as <- <- <- <-. rewrite Z.eqb_refl. cbn [oaMap map fst snd app]. split; [left; reflexivity|]. exists lv.
        split; [left; reflexivity|lia].
      * destruct (i_sub _ _ _ _ _ V g d o' b Hi) as (Q1 & L & Q2 & Q3). destruct (Z.eqb_spec d dev) as [->|]; cbn [oaMap map fst snd app].
        { split; [right; exact Q1|]. exists L. split; [right; exact Q2|exact Q3]. }
        { split; [exact Q1|]. exists L. auto. }
    + intros d g o' L h' n' Hm [E|Hi].
      * injection E as <- <- <- <-. rewrite Z.eqb_refl in Hm. cbn [oaMap] in Hm.
        destruct Hm as [Em|Hm]; [congruence|destruct (Ne g L Hm)].
      * destruct (Z.eqb_spec d dev) as [->|]; cbn [oaMap] in Hm; [|apply (i_own _ _ _ _ _ V _ g o' L h' n' Hm Hi)].
        destruct Hm as [Em|Hm]; [|apply (i_own _ _ _ _ _ V _ g o' L h' n' Hm Hi)].
        injection Em as <- <- <-. destruct (Nh h' n' Hi).
    + intros d o' g b h' n' [E|Hi] [E'|Hi'].
      * congruence.
      * injection E as <- <- <- <-. destruct (Nh h' n' Hi').
      * injection E' as <- <- <- <-. destruct (Nh g b Hi).
      * apply (i_dist _ _ _ _ _ V d o' g b h' n' Hi Hi').
    + intros S d. destruct (i_strict _ _ _ _ _ V S d) as (S1 & S2). split; [exact S1|].
      intros g c0 Hg. destruct (Z.eqb_spec d dev) as [->|]; cbn [oaMap] in Hg.
      * destruct Hg as [Eg|Hg]; [injection Eg as <- <-; exists (mkObj dev (Some o) (n * sz)); split; [left; reflexivity|reflexivity]|].
        destruct (S2 g c0 Hg) as (x & Hx & Ex0). exists x. split; [right; exact Hx|exact Ex0].
      * destruct (S2 g c0 Hg) as (x & Hx & Ex0). exists x. split; [right; exact Hx|exact Ex0].
Qed.

(** *** free *)
Lemma ostep_free strict k av lost st h : oinv strict k av lost st -> oop_ok strict st (OFree h) ->
  exists lost' st', cl_free st h = Ok st' /\ oinv strict k av lost' st' /\ oActive st' = oActive st /\
    oHeld st' = filter (fun x => negb (fst x =? h)) (oHeld st).
Proof.
  intros V (Hh & Hst). unfold cl_free. set (dev := oActive st) in *. set (c := oDev st dev) in *.
  assert (Hex : existsb (fun x => fst x =? h) (oHeld st) = true) by (apply existsb_key; exact Hh).
  assert (Hs2 : strict -> forall d g c0, In (g, c0) (oaMap (oDev st d)) -> (d = dev -> g <> h) ->
    exists x, In (g, x) (filter (fun x => negb (fst x =? h)) (oHeld st)) /\ mDev x = d).
  { intros S d g c0 Hg N. destruct (i_strict _ _ _ _ _ V S d) as (_ & S2). destruct (S2 g c0 Hg) as (x & Hx & Ex).
    exists x. split; [|exact Ex]. apply In_drop. split; [exact Hx|]. cbn [fst]. intros ->.
    specialize (Hst S x Hx). apply N; [congruence|reflexivity]. }
  destruct (if oaData c then find (fun x => fst x =? h) (oaMap c) else None) as [[h0 [o lv]]|] eqn:Ef.
  - destruct (oaData c) eqn:Ed; [|discriminate]. apply find_some in Ef as (Hi & E0). apply Z.eqb_eq in E0. cbn [fst] in E0. subst h0.
    pose proof (i_arena _ _ _ _ _ V dev Ed) as W. fold c in W.
    assert (Hic : In (o, lv) (map snd (oaMap c))) by (apply in_map_iff; exists (h, (o, lv)); auto).
    destruct (@wok_give ocl _ _ _ _ o lv W ltac:(apply in_or_app; auto)) as (fc & -> & W'). cbn [bind].
    destruct (NoDup_fst_app _ _ (wok_nodup _ _ _ _ W)) as (N1 & N2).
    assert (Nl : ~ In o (map fst (lost dev))).
    { apply N2. apply in_map_iff. exists (o, lv). auto. }
    rewrite filter_app, (filter_none _ _ Nl) in W'.
    rewrite <- (drop_chunk (oaMap c) h o lv (i_keys _ _ _ _ _ V dev) N1 Hi) in W'.
    cbn [oset_dev oHeld]. rewrite Hex. exists lost. eexists. split; [reflexivity|].
    split; [|split; reflexivity].
    constructor; unfold oset_held, oset_dev; cbn [oDev oHeld].
    + intros d. destruct (Z.eqb_spec d dev) as [->|]; apply (i_min _ _ _ _ _ V).
    + intros d. destruct (Z.eqb_spec d dev) as [->|]; apply (i_av _ _ _ _ _ V).
    + intros d. destruct (Z.eqb_spec d dev) as [->|]; [|apply (i_none _ _ _ _ _ V)]. cbn [oaData]. discriminate.
    + intros d. destruct (Z.eqb_spec d dev) as [->|]; [|apply (i_arena _ _ _ _ _ V)]. intros _. exact W'.
    + intros d. destruct (Z.eqb_spec d dev) as [->|]; [|apply (i_keys _ _ _ _ _ V)]. cbn [oaMap].
      apply NoDup_map_filter. apply (i_keys _ _ _ _ _ V).
    + apply NoDup_map_filter. apply (i_nodup _ _ _ _ _ V).
    + intros g d o' b Hg. apply In_drop in Hg as [Hg Ng]. cbn [fst] in Ng.
      destruct (i_sub _ _ _ _ _ V g d o' b Hg) as (Q1 & L & Q2 & Q3). destruct (Z.eqb_spec d dev) as [->|]; cbn [oaMap].
      * split; [apply In_drop_key; auto|]. exists L. split; [|exact Q3]. fold c in Q2.
        rewrite (drop_chunk (oaMap c) h o lv (i_keys _ _ _ _ _ V dev) N1 Hi). apply in_app_or in Q2 as [Q2|Q2]; apply in_or_app; [left|auto].
        apply In_drop. split; [exact Q2|]. cbn [fst]. intros ->.
        apply Ng. apply (i_own _ _ _ _ _ V dev h o lv g b Hi Hg).
      * split; [exact Q1|]. exists L. auto.
    + intros d g o' L h' n' Hm Hg. apply In_drop in Hg as [Hg _].
      destruct (Z.eqb_spec d dev) as [->|]; cbn [oaMap] in Hm; [apply In_drop in Hm as [Hm _]|]; apply (i_own _ _ _ _ _ V _ g o' L h' n' Hm Hg).
    + intros d o' g b h' n' Hg Hg'. apply In_drop in Hg as [Hg _]. apply In_drop in Hg' as [Hg' _].
      apply (i_dist _ _ _ _ _ V d o' g b h' n' Hg Hg').
    + intros S d. split; [apply (i_strict _ _ _ _ _ V S d)|]. intros g c0 Hg.
      destruct (Z.eqb_spec d dev) as [->|]; cbn [oaMap] in Hg.
      * apply In_drop in Hg as [Hg Ng]. apply (Hs2 S dev g c0 Hg). intros _. exact Ng.
      * apply (Hs2 S d g c0 Hg). intros ->. contradiction.
  - cbn [bind oset_dev oHeld]. rewrite Hex. exists lost. eexists. split; [reflexivity|]. split; [|split; reflexivity].
    assert (Nm : ~ In h (map fst (oaMap c))).
    { intros Hx. destruct (oaData c) eqn:Ed; [|fold c in Hx; pose proof (i_none _ _ _ _ _ V dev Ed) as X; fold c in X; rewrite X in Hx; contradiction].
      apply in_map_iff in Hx as (x & E & Hx). pose proof (find_none _ _ Ef x Hx) as X. cbn in X. apply Z.eqb_neq in X. contradiction. }
    assert (Ed : forall d, (if d =? dev then c else oDev st d) = oDev st d).
    { intros d. destruct (Z.eqb_spec d dev) as [->|]; reflexivity. }
    constructor; unfold oset_held, oset_dev; cbn [oDev oHeld].
    + intros d. rewrite Ed. apply (i_min _ _ _ _ _ V).
    + intros d. rewrite Ed. apply (i_av _ _ _ _ _ V).
    + intros d. rewrite Ed. apply (i_none _ _ _ _ _ V).
    + intros d. rewrite Ed. apply (i_arena _ _ _ _ _ V).
    + intros d. rewrite Ed. apply (i_keys _ _ _ _ _ V).
    + apply NoDup_map_filter. apply (i_nodup _ _ _ _ _ V).
    + intros g d o' b Hg. rewrite Ed. apply In_drop in Hg as [Hg Ng]. apply (i_sub _ _ _ _ _ V g d o' b Hg).
    + intros d g o' L h' n' Hm Hg. rewrite Ed in Hm. apply In_drop in Hg as [Hg _]. apply (i_own _ _ _ _ _ V _ g o' L h' n' Hm Hg).
    + intros d o' g b h' n' Hg Hg'. apply In_drop in Hg as [Hg _]. apply In_drop in Hg' as [Hg' _].
      apply (i_dist _ _ _ _ _ V d o' g b h' n' Hg Hg').
    + intros S d. split; [apply (i_strict _ _ _ _ _ V S d)|]. intros g c0 Hg. rewrite Ed in Hg.
      apply (Hs2 S d g c0 Hg). intros -> ->. apply Nm. apply in_map_iff. exists (h, c0). auto.
Qed.

Lemma ostep_ok strict k av lost st o : oinv strict k av lost st -> oop_ok strict st o ->
  exists lost' st', (ostep st o = Ok st' \/ ostep st o = Throw st') /\ oinv strict k av lost' st'.
Proof.
  intros V Ho. destruct o as [dev size ok|n sz ans|h|dev]; cbn [ostep].
  - destruct (ostep_reserve strict k av lost st dev size ok V Ho) as (st' & H & (lost' & V') & _). exists lost', st'. auto.
  - destruct (ostep_alloc strict k av lost st n sz ans V Ho) as (lost' & st' & V' & _ & [(h & -> & _)|(-> & _)]); cbn [bind];
      exists lost', st'; auto.
  - destruct (ostep_free strict k av lost st h V Ho) as (lost' & st' & -> & V' & _). exists lost', st'. auto.
  - exists lost. eexists. split; [left; reflexivity|]. constructor; cbn [oDev oHeld]; apply V.
Qed.
Lemma orun_ok strict k av : forall ops lost st, oinv strict k av lost st -> oops_ok strict st ops ->
  exists lost' st', orun st ops = Ok st' /\ oinv strict k av lost' st'.
Proof.
  induction ops as [|o t IH]; intros lost st V H; [exists lost, st; auto|]. destruct H as (Ho & Ht). cbn [orun].
  destruct (ostep_ok strict k av lost st o V Ho) as (lost' & st' & [E|E] & V'); rewrite E; apply (IH lost'); auto.
Qed.

(** A checker of the hypotheses, for the examples *)
Definition oop_okb (strict : bool) (st : ocl) (o : oop) : bool :=
  match o with
  | OReserve _ size _ => 0 <=? size
  | OAlloc n sz ans => (0 <=? n) && (0 <? sz) && (n * sz <? 2 ^ 63) &&
      match ans with Some h => negb (existsb (fun x => fst x =? h) (oHeld st)) | None => true end
  | OFree h => existsb (fun x => fst x =? h) (oHeld st) &&
      (negb strict || forallb (fun x => negb (fst x =? h) || (mDev (snd x) =? oActive st)) (oHeld st))
  | OActive _ => true
  end.
Fixpoint oops_okb (strict : bool) (st : ocl) (ops : list oop) : bool :=
  match ops with
  | [] => true
  | o :: t => oop_okb strict st o && match ostep st o with Ok st' | Throw st' => oops_okb strict st' t | _ => true end
  end.
Lemma oop_okb_ok strict st o : oop_okb strict st o = true -> oop_ok (strict = true) st o.
Proof.
  destruct o as [dev size ok|n sz ans|h|dev]; cbn [oop_okb oop_ok]; intros H.
  - apply Z.leb_le. exact H.
  - rewrite !andb_true_iff in H. destruct H as (((H1 & H2) & H3) & H4). apply Z.leb_le in H1. apply Z.ltb_lt in H2, H3.
    repeat (split; [assumption|]). intros h -> Hi. apply existsb_key in Hi. rewrite Hi in H4. discriminate.
  - apply andb_prop in H as [H1 H2]. split; [apply existsb_key; exact H1|]. intros -> x Hx. cbn [negb orb] in H2.
    rewrite forallb_forall in H2. specialize (H2 _ Hx). cbn [fst snd] in H2. rewrite Z.eqb_refl in H2. cbn [negb orb] in H2.
    apply Z.eqb_eq. exact H2.
  - exact I.
Qed.
Lemma oops_okb_ok strict : forall ops st, oops_okb strict st ops = true -> oops_ok (strict = true) st ops.
Proof.
  induction ops as [|o t IH]; intros st H; cbn [oops_okb oops_ok] in *; [exact I|].
  apply andb_prop in H as [H1 H2]. split; [apply oop_okb_ok; exact H1|]. intros st' [E|E]; rewrite E in H2; apply IH; exact H2.
Qed.

(** ** C150 *)
(** In every history, with any device active at each call and with exceptions of earlier calls
    caught: the sub-buffers of the reserved memory of a device are inside it, at offsets the
    device allows, and do not overlap; and an allocation throws only when the OpenCL library
    refuses, a free never does. *)
Theorem C150_sub_buffers : forall avail align k ops, odevs_ok avail align k -> oops_ok False (ocl_new avail align) ops ->
  exists st, orun (ocl_new avail align) ops = Ok st /\
    (forall h dev o n, In (h, mkObj dev (Some o) n) (oHeld st) ->
       0 <= o /\ o + n <= oaSize (oDev st dev) /\ (o * 8) mod align dev = 0 /\
       forall h' o' n', In (h', mkObj dev (Some o') n') (oHeld st) -> h' <> h -> o + n <= o' \/ o' + n' <= o).
Proof.
  intros avail align k ops Hd Ho. destruct (orun_ok False k avail ops _ _ (oinv_new False avail align k Hd) Ho) as (lost & st & E & V).
  exists st. split; [exact E|]. intros h dev o n Hi. destruct (i_sub _ _ _ _ _ V h dev o n Hi) as (_ & L & HL & Hn).
  pose proof (i_arena _ _ _ _ _ V dev (oinv_data _ _ _ _ _ _ _ _ _ V Hi)) as W.
  destruct (wok_in _ _ _ _ o L W HL) as (G1 & G2). split; [exact G1|]. split; [lia|]. split.
  - destruct (Hd dev) as (_ & -> & _). pose proof (pow_pos (k dev)). apply Z.mod_divide; [lia|].
    apply Z.divide_mul_l. apply (w_al _ _ _ _ W o L HL).
  - intros h' o' n' Hi' N. destruct (i_sub _ _ _ _ _ V h' dev o' n' Hi') as (_ & L' & HL' & Hn').
    destruct (wok_disj _ _ _ _ o L o' L' W HL HL') as [G|G]; [|left; lia|right; lia].
    intros X. injection X as <- _. apply N. apply (i_dist _ _ _ _ _ V dev o h' n' h n Hi' Hi).
Qed.
Theorem C150_calls_succeed : forall avail align k ops st, odevs_ok avail align k -> oops_ok False (ocl_new avail align) ops ->
  orun (ocl_new avail align) ops = Ok st ->
  (forall n sz h, oop_ok False st (OAlloc n sz (Some h)) ->
     exists st' x, cl_allocate st n sz (Some h) = Ok (st', h) /\ In (h, x) (oHeld st') /\ mBytes x = n * sz /\ mDev x = oActive st) /\
  (forall h, In h (map fst (oHeld st)) -> exists st', cl_free st h = Ok st').
Proof.
  intros avail align k ops st Hd Ho E. destruct (orun_ok False k avail ops _ _ (oinv_new False avail align k Hd) Ho) as (lost & s & E' & V).
  assert (s = st) by congruence. subst s. split.
  - intros n sz h Hop. destruct (ostep_alloc False k avail lost st n sz (Some h) V Hop) as (l' & st' & V' & _ & [(h' & Ea & Eh)|(_ & Eh & _)]); [|discriminate].
    injection Eh as <-. exists st'.
    assert (Hx : exists x, In (h, x) (oHeld st') /\ mBytes x = n * sz /\ mDev x = oActive st).
    { revert Ea. unfold cl_allocate. clear. 
      assert (B : Ok (oset_held st ((h, mkObj (oActive st) None (n * sz)) :: oHeld st), h) = @Ok ocl _ (st', h) ->
        exists x, In (h, x) (oHeld st') /\ mBytes x = n * sz /\ mDev x = oActive st).
      { intros Eq. injection Eq as <-. eexists. split; [left; reflexivity|auto]. }
      destruct (oaData _ && _); [|exact B].
      destruct (getAllocationLevel _) as [lv| | |]; try discriminate. cbn [bind].
      destruct (take_chunk lv _) as [[[[o f1] f2]|]| | |]; try discriminate; cbn [bind]; [|exact B].
      destruct (sub_aligned _ _); [|discriminate]. intros Eq. injection Eq as <-. eexists. split; [left; reflexivity|auto]. }
    destruct Hx as (x & Hx). exists x. split; [exact Ea|exact Hx].
  - intros h Hh. destruct (ostep_free False k avail lost st h V) as (l' & st' & Ef & _); [split; [exact Hh|contradiction]|].
    exists st'. exact Ef.
Qed.

(** Two devices of 1000 bytes with alignments of 64 and 128 bits; a free while the other device
    is active, a handle used again, a refused sub-buffer, a reserve that throws. *)
Definition xav (_ : Z) : Z := 1000.
Definition xal (dev : Z) : Z := if dev =? 0 then 64 else 128.
Definition xk (dev : Z) : nat := if dev =? 0 then 6%nat else 7%nat.
Definition xhist : list oop :=
  [OReserve 0 1000 true; OReserve 1 512 true; OAlloc 5 4 (Some 11); OAlloc 100 1 (Some 12); OAlloc 3 1 None; OActive 1;
   OAlloc 10 2 (Some 13); OFree 11; OActive 0; OAlloc 7 1 (Some 11); OReserve 0 300 true; OAlloc 400 2 (Some 14); OFree 12].
Example C150_case_devs : odevs_ok xav xal xk.
Proof. intros dev. unfold xav, xal, xk. destruct (dev =? 0); (split; [lia|split; [reflexivity|lia]]). Qed.
Example C150_case : oops_ok False (ocl_new xav xal) xhist.
Proof.
  assert (G : forall ops st, oops_ok (false = true) st ops -> oops_ok False st ops).
  { induction ops as [|o t IH]; intros st H; [exact I|]. destruct H as (H1 & H2). split.
    - destruct o; cbn [oop_ok] in *; auto. destruct H1 as (H1 & _). split; [exact H1|contradiction].
    - intros st' E. apply IH. apply H2. exact E. }
  apply G. apply oops_okb_ok. vm_compute. reflexivity.
Qed.
Example C150_case_run : match orun (ocl_new xav xal) xhist with
  | Ok st => oHeld st = [(14, mkObj 0 None 800); (11, mkObj 0 (Some 512) 7); (13, mkObj 1 (Some 0) 20)]
  | _ => False end.
Proof. vm_compute. reflexivity. Qed.
Print Assumptions C150_sub_buffers.
Print Assumptions C150_calls_succeed.

(** ** C151 *)
(** The full claim: memory that the program has freed is available again: when it holds no
    sub-buffer of the memory reserved on a device, the memory can be reserved anew. *)
Definition C151_claim : Prop :=
  forall avail align k ops st dev size, odevs_ok avail align k -> oops_ok False (ocl_new avail align) ops ->
    orun (ocl_new avail align) ops = Ok st ->
    (forall h o n, ~ In (h, mkObj dev (Some o) n) (oHeld st)) -> 0 < size <= avail dev ->
    exists st', cl_reserve st dev size true = Ok st'.
Theorem C151_device_memory_returned_refuted : ~ C151_claim.
Proof.
  intros H.
  set (ops := [OReserve 0 512 true; OAlloc 8 1 (Some 11); OActive 1; OFree 11]).
  destruct (orun (ocl_new xav xal) ops) as [st| | |] eqn:E; try (vm_compute in E; discriminate).
  destruct (H xav xal xk ops st 0 256 C150_case_devs) as (st' & Er).
  - assert (G : forall ops st, oops_ok (false = true) st ops -> oops_ok False st ops).
    { clear. induction ops as [|o t IH]; intros st H; [exact I|]. destruct H as (H1 & H2). split.
      - destruct o; cbn [oop_ok] in *; auto. destruct H1 as (H1 & _). split; [exact H1|contradiction].
      - intros st' E. apply IH. apply H2. exact E. }
    apply G. apply oops_okb_ok. vm_compute. reflexivity.
  - exact E.
  - assert (X : oHeld st = []).
    { assert (Y : match orun (ocl_new xav xal) ops with Ok s => oHeld s = [] | _ => False end) by (vm_compute; reflexivity).
      rewrite E in Y. exact Y. }
    rewrite X. intros h o n [].
  - unfold xav. lia.
  - assert (Y : match orun (ocl_new xav xal) ops with Ok s => match cl_reserve s 0 256 true with Ok _ => false | _ => true end | _ => true end = true)
      by (vm_compute; reflexivity).
    rewrite E, Er in Y. discriminate.
Qed.
(** What is proved: when memory is freed while the device is active that was active when it was
    allocated, the allocated chunks of a device are those of the sub-buffers the program holds,
    and with none of them all its bytes are free and reserve succeeds. *)
Theorem C151_device_memory_returned_partial : forall avail align k ops st dev, odevs_ok avail align k ->
  oops_ok True (ocl_new avail align) ops -> orun (ocl_new avail align) ops = Ok st ->
  (forall h, In h (map fst (oaMap (oDev st dev))) -> exists x, In (h, x) (oHeld st) /\ mDev x = dev) /\
  (oaMap (oDev st dev) = [] ->
     (oaData (oDev st dev) = true -> free_bytes 0 (oaFc (oDev st dev)) = oaSize (oDev st dev)) /\
     forall size, 0 < size <= avail dev -> exists st', cl_reserve st dev size true = Ok st' /\ oaSize (oDev st' dev) = size).
Proof.
  intros avail align k ops st dev Hd Ho E. destruct (orun_ok True k avail ops _ _ (oinv_new True avail align k Hd) Ho) as (lost & s & E' & V).
  assert (s = st) by congruence. subst s. destruct (i_strict _ _ _ _ _ V I dev) as (S1 & S2). split.
  - intros h Hh. apply in_map_iff in Hh as ([h0 c] & Eh & Hi). cbn [fst] in Eh. subst h0. apply (S2 h c Hi).
  - intros Em. split.
    + intros Ed. pose proof (i_arena _ _ _ _ _ V dev Ed) as W. rewrite Em, S1 in W. cbn [map app] in W.
      pose proof (w_sum _ _ _ _ W) as Hsum. cbn [totA] in Hsum. rewrite <- Hsum.
      assert (G : forall fc i, free_bytes i fc = totF csize i fc).
      { clear. induction fc as [|l t IH]; intros i; cbn [free_bytes totF]; [reflexivity|]. rewrite IH. f_equal.
        induction l as [|x l IHl]; [reflexivity|]. cbn [totL length]. rewrite <- IHl, Nat2Z.inj_succ. unfold csize. lia. }
      rewrite G. lia.
    + intros size Hs. destruct (ostep_reserve True k avail lost st dev size true V ltac:(lia)) as (st' & _ & _ & _ & _ & G).
      exists st'. apply G; [exact Em| |reflexivity].
      destruct (i_av _ _ _ _ _ V dev) as (-> & _). exact Hs.
Qed.
Example C151_case_bad : match orun (ocl_new xav xal) [OReserve 0 512 true; OAlloc 8 1 (Some 11); OActive 1; OFree 11] with
  | Ok st => oHeld st = [] /\ oaMap (oDev st 0) = [(11, (0, 6%nat))] | _ => False end.
Proof. vm_compute. split; reflexivity. Qed.
Definition xhist2 : list oop :=
  [OReserve 0 512 true; OAlloc 8 1 (Some 11); OActive 1; OAlloc 8 1 (Some 12); OActive 0; OFree 11; OActive 1; OFree 12; OReserve 0 256 true].
Example C151_case : oops_ok True (ocl_new xav xal) xhist2.
Proof.
  assert (G : forall ops st, oops_ok (true = true) st ops -> oops_ok True st ops).
  { induction ops as [|o t IH]; intros st H; [exact I|]. destruct H as (H1 & H2). split.
    - destruct o; cbn [oop_ok] in *; auto. destruct H1 as (H1 & H3). split; [exact H1|auto].
    - intros st' E. apply IH. apply H2. exact E. }
  apply G. apply oops_okb_ok. vm_compute. reflexivity.
Qed.
Example C151_case_run : match orun (ocl_new xav xal) xhist2 with
  | Ok st => oHeld st = [] /\ oaMap (oDev st 0) = [] /\ oaSize (oDev st 0) = 256 | _ => False end.
Proof. vm_compute. repeat split; reflexivity. Qed.
Print Assumptions C151_device_memory_returned_refuted.
Print Assumptions C151_device_memory_returned_partial.

(** ** Histories of CUDA memory *)
(** Two ranges (address, bytes) have no byte in common. *)
Definition away (r r' : Z * Z) : Prop := fst r + snd r <= fst r' \/ fst r' + snd r' <= fst r.
(** What a program and the CUDA runtime may do: cudaMalloc returns memory that is not in use;
    only addresses the program holds are freed; requests are of at least 2^m bytes.  [strict]:
    memory is freed while the device is active that was active when it was allocated. *)
Definition gop_ok (strict : Prop) (m : nat) (st : gpu) (o : gop) : Prop :=
  match o with
  | GReserve dev size ans => 0 <= size /\ forall d, ans = Some d -> 0 < d /\
      forall b, In b (gBlocks st) -> caData (gDev st dev) <> Some (fst b) -> away (d, size) b
  | GAlloc n sz ans => 0 < n /\ 0 < sz /\ 2 ^ Z.of_nat m <= n * sz < 2 ^ 63 /\ forall d, ans = Some d -> 0 < d /\
      forall b, In b (gBlocks st) -> away (d, n * sz) b
  | GFree a => exists x, In x (gHeld st) /\ hAddr x = a /\ (strict -> hDev x = gActive st)
  | GActive _ => True
  end.
Fixpoint gops_ok (strict : Prop) (m : nat) (st : gpu) (ops : list gop) : Prop :=
  match ops with
  | [] => True
  | o :: t => gop_ok strict m st o /\
      forall st', (gstep st o = Ok st' \/ gstep st o = Throw st') -> gops_ok strict m st' t
  end.
(** A range the program holds is in memory that has not been given back to the driver. *)
Definition backed (st : gpu) (x : held) : Prop :=
  exists b, In b (gBlocks st) /\ fst b <= hAddr x /\ hAddr x + hBytes x <= fst b + snd b.

Definition in_arena (st : gpu) (x : held) : Prop :=
  exists d o L, caData (gDev st (hDev x)) = Some d /\ hAddr x = d + o /\ In (o, L) (caAl (gDev st (hDev x))) /\ hBytes x <= 2 ^ Z.of_nat L.
Definition own_block (st : gpu) (x : held) : Prop :=
  In (hAddr x, hBytes x) (gBlocks st) /\ forall dev, caData (gDev st dev) <> Some (hAddr x).
Record ginv (m : nat) (st : gpu) : Prop := mkGinv {
  g_av : forall dev, caAvail (gDev st dev) < 2 ^ 63;
  g_none : forall dev, caData (gDev st dev) = None -> caAl (gDev st dev) = [];
  g_arena : forall dev d, caData (gDev st dev) = Some d -> In (d, caSize (gDev st dev)) (gBlocks st) /\
    wok m (caSize (gDev st dev)) (caFc (gDev st dev)) (caAl (gDev st dev));
  g_one : forall dev dev' d, caData (gDev st dev) = Some d -> caData (gDev st dev') = Some d -> dev = dev';
  g_pos : forall b, In b (gBlocks st) -> 0 < fst b /\ 0 < snd b;
  g_nodup : NoDup (map fst (gBlocks st));
  g_away : forall b b', In b (gBlocks st) -> In b' (gBlocks st) -> fst b <> fst b' -> away b b';
  g_held : forall x, In x (gHeld st) -> 0 < hBytes x /\ (in_arena st x \/ own_block st x);
  g_addr : NoDup (map hAddr (gHeld st))
}.
Lemma ginv_new m avail : (forall dev, avail dev < 2 ^ 63) -> ginv m (gpu_new avail).
Proof.
  intros H. constructor; cbn; try discriminate; try contradiction; auto; constructor.
Qed.
Lemma ginv_backed m st x : ginv m st -> In x (gHeld st) -> backed st x.
Proof.
  intros V Hx. destruct (g_held _ _ V x Hx) as (_ & [(d & o & L & Hd & Ea & Hi & Hb)|(Hi & _)]).
  - destruct (g_arena _ _ V _ d Hd) as (Hin & W). destruct (wok_in _ _ _ _ o L W Hi) as (G1 & G2).
    exists (d, caSize (gDev st (hDev x))). cbn [fst snd]. split; [exact Hin|lia].
  - exists (hAddr x, hBytes x). cbn [fst snd]. split; [exact Hi|lia].
Qed.
(** Where the address of a held range is in an arena *)
Lemma own_not_in_arena m st x dev d o L : ginv m st -> own_block st x -> caData (gDev st dev) = Some d ->
  In (o, L) (caAl (gDev st dev)) -> hAddr x <> d + o.
Proof.
  intros V (Hi & Hn) Hd Ho E. destruct (g_arena _ _ V dev d Hd) as (Hin & W). destruct (wok_in _ _ _ _ o L W Ho) as (G1 & G2).
  pose proof (pow_pos L). pose proof (g_pos _ _ V _ Hi) as (P1 & P2). cbn [fst snd] in P1, P2.
  assert (N : hAddr x <> d) by (intros X; apply (Hn dev); congruence).
  destruct (g_away _ _ V _ _ Hi Hin N) as [G|G]; cbn [fst snd] in G; lia.
Qed.
(** The address of a chunk of one arena is in no other block. *)
Lemma arena_addr m st dev d o L b : ginv m st -> caData (gDev st dev) = Some d -> In (o, L) (caAl (gDev st dev)) ->
  In b (gBlocks st) -> fst b <= d + o < fst b + snd b -> b = (d, caSize (gDev st dev)).
Proof.
  intros V Hd Ho Hb Hr. destruct (g_arena _ _ V dev d Hd) as (Hin & W). destruct (wok_in _ _ _ _ o L W Ho) as (G1 & G2).
  pose proof (pow_pos L). destruct (Z.eq_dec (fst b) d) as [E|N].
  - destruct b as [a s]. cbn [fst] in E. subst a. f_equal. apply (nodup_key (gBlocks st) d s _ (g_nodup _ _ V) Hb Hin).
  - destruct (g_away _ _ V _ _ Hb Hin N) as [G|G]; cbn [fst snd] in G; lia.
Qed.
Lemma ginv_disjoint m st x y : ginv m st -> In x (gHeld st) -> In y (gHeld st) -> hAddr x <> hAddr y ->
  away (hAddr x, hBytes x) (hAddr y, hBytes y).
Proof.
  assert (Hmix : forall x y, ginv m st -> in_arena st x -> own_block st y -> away (hAddr x, hBytes x) (hAddr y, hBytes y)).
  { clear. intros x y V (d & o & L & Hd & Ea & Hi & Hb) (Hy & Hn). destruct (g_arena _ _ V _ d Hd) as (Hin & W).
    destruct (wok_in _ _ _ _ o L W Hi) as (G1 & G2). assert (N : d <> hAddr y) by (intros X; apply (Hn (hDev x)); congruence).
    destruct (g_away _ _ V _ _ Hin Hy N) as [G|G]; unfold away; cbn [fst snd] in *; lia. }
  intros V Hx Hy N. destruct (g_held _ _ V x Hx) as (_ & [Ax|Ox]), (g_held _ _ V y Hy) as (_ & [Ay|Oy]).
  - destruct Ax as (d & o & L & Hd & Ea & Hi & Hb), Ay as (d' & o' & L' & Hd' & Ea' & Hi' & Hb').
    destruct (g_arena _ _ V _ d Hd) as (Hin & W). destruct (wok_in _ _ _ _ o L W Hi) as (G1 & G2).
    destruct (g_arena _ _ V _ d' Hd') as (Hin' & W'). destruct (wok_in _ _ _ _ o' L' W' Hi') as (G1' & G2').
    destruct (Z.eq_dec d d') as [E|Nd].
    + subst d'. pose proof (g_one _ _ V _ _ _ Hd Hd') as E. rewrite <- E in Hi'.
      destruct (wok_disj _ _ _ _ o L o' L' W Hi Hi') as [G|G]; [intros X; injection X as -> ->; lia| |]; unfold away; cbn [fst snd]; lia.
    + destruct (g_away _ _ V _ _ Hin Hin' Nd) as [G|G]; unfold away; cbn [fst snd] in *; lia.
  - apply Hmix; assumption.
  - destruct (Hmix y x V Ay Ox) as [G|G]; [right|left]; exact G.
  - apply (g_away _ _ V _ _ (proj1 Ox) (proj1 Oy) N).
Qed.

(** *** cudaFree *)
Lemma cudaFree_ok st a s : 0 < a -> In (a, s) (gBlocks st) ->
  cudaFree st a = Ok (set_blocks st (filter (fun b => negb (fst b =? a)) (gBlocks st))).
Proof.
  intros Ha Hi. unfold cudaFree. destruct (Z.eqb_spec a 0); [lia|].
  assert (E : existsb (fun b => fst b =? a) (gBlocks st) = true) by (apply existsb_key; apply in_map_iff; exists (a, s); auto).
  rewrite E. reflexivity.
Qed.

(** *** cudaMalloc *)
Lemma ginv_malloc m st n sz d : ginv m st -> gop_ok False m st (GAlloc n sz (Some d)) ->
  ginv m (set_held (set_blocks st ((d, n * sz) :: gBlocks st)) (mkHeld d (n * sz) (gActive st) :: gHeld st)).
Proof.
  intros V (Hn & Hz & Hb & Hf). destruct (Hf d eq_refl) as (Hd & Haw). pose proof (pow_pos m).
  assert (Nb : ~ In d (map fst (gBlocks st))).
  { intros Hi. apply in_map_iff in Hi as (b & E & Hi). pose proof (g_pos _ _ V b Hi). destruct (Haw b Hi) as [G|G]; cbn [fst snd] in G; lia. }
  assert (Hin : forall x, in_arena st x -> in_arena (set_held (set_blocks st ((d, n * sz) :: gBlocks st)) (mkHeld d (n * sz) (gActive st) :: gHeld st)) x).
  { intros x H1. exact H1. }
  constructor; unfold set_held, set_blocks; cbn [gDev gBlocks gHeld gActive]; try apply V.
  - intros dev a Ha. destruct (g_arena _ _ V dev a Ha) as (G1 & G2). split; [right; exact G1|exact G2].
  - intros b [<-|Hb']; [cbn; lia|apply (g_pos _ _ V b Hb')].
  - cbn [map fst]. constructor; [exact Nb|apply (g_nodup _ _ V)].
  - intros b b' [<-|Hi] [<-|Hi'] N; [contradiction|apply Haw; exact Hi'| |apply (g_away _ _ V); assumption].
    destruct (Haw b Hi) as [G|G]; [right|left]; exact G.
  - intros x [<-|Hx].
    + cbn [hBytes]. split; [lia|]. right. split; cbn [hAddr hBytes gBlocks gDev]; [left; reflexivity|].
      intros dev E. destruct (g_arena _ _ V dev d E) as (G1 & _). apply Nb. apply in_map_iff. eexists. split; [|exact G1]. reflexivity.
    + destruct (g_held _ _ V x Hx) as (H1 & [H2|(H2 & H3)]); split; auto. right. split; [right; exact H2|exact H3].
  - cbn [map hAddr]. constructor; [|apply (g_addr _ _ V)]. intros Hi. apply in_map_iff in Hi as (x & E & Hx).
    destruct (ginv_backed _ _ x V Hx) as (b & B1 & B2 & B3). destruct (g_held _ _ V x Hx) as (P & _).
    destruct (Haw b B1) as [G|G]; cbn [fst snd] in G; lia.
Qed.

(** *** reserve *)
Lemma gstep_reserve strict m st dev size ans : ginv m st -> gop_ok strict m st (GReserve dev size ans) ->
  exists st', (cu_reserve st dev size ans = Ok st' \/ cu_reserve st dev size ans = Throw st') /\ ginv m st' /\
    gHeld st' = gHeld st /\ gActive st' = gActive st.
Proof.
  intros V (Hs & Hf). unfold cu_reserve. destruct (Z.eqb_spec size 0) as [E0|N0]; cbn [negb]; [exists st; auto|].
  destruct (Z.eqb_spec size (caSize (gDev st dev))) as [E|N]; [exists st; auto|].
  destruct (Z.leb_spec size (caAvail (gDev st dev))) as [Hav|Hav]; [|exists st; auto].
  destruct (caAl (gDev st dev)) as [|e t] eqn:Em; [|exists st; auto].
  pose proof (g_av _ _ V dev) as Hb.
  (* after the old memory has been freed *)
  assert (Hfree : exists st1, cu_free_arena st dev = Ok st1 /\ ginv m st1 /\ gHeld st1 = gHeld st /\ gActive st1 = gActive st /\
    (forall b, In b (gBlocks st1) -> In b (gBlocks st) /\ caData (gDev st dev) <> Some (fst b)) /\
    gDev st1 = gDev (set_dev st dev (mkCa None 0 [] [] (caAvail (gDev st dev))))).
  { unfold cu_free_arena.
    assert (Hx : forall st0, gDev st0 = gDev st -> gHeld st0 = gHeld st -> gActive st0 = gActive st ->
      (forall b, In b (gBlocks st0) <-> In b (gBlocks st) /\ caData (gDev st dev) <> Some (fst b)) -> NoDup (map fst (gBlocks st0)) ->
      ginv m (set_dev st0 dev (mkCa None 0 [] [] (caAvail (gDev st dev))))).
    { intros st0 D0 H0 A0 B0 Nd0. constructor; unfold set_dev; cbn [gDev gBlocks gHeld gActive]; rewrite ?D0, ?H0.
      - intros k. destruct (Z.eqb_spec k dev); [exact Hb|apply (g_av _ _ V)].
      - intros k. destruct (Z.eqb_spec k dev); [reflexivity|apply (g_none _ _ V)].
      - intros k d. destruct (Z.eqb_spec k dev) as [->|Nk]; [discriminate|]. intros Hd. destruct (g_arena _ _ V k d Hd) as (G1 & G2).
        split; [|exact G2]. apply B0. split; [exact G1|]. cbn [fst]. intros X. apply Nk. apply (g_one _ _ V k dev d Hd X).
      - intros k k' d. destruct (Z.eqb_spec k dev); [discriminate|]. destruct (Z.eqb_spec k' dev); [discriminate|]. apply (g_one _ _ V).
      - intros b Hi. apply B0 in Hi as (Hi & _). apply (g_pos _ _ V b Hi).
      - exact Nd0.
      - intros b b' Hi Hi'. apply B0 in Hi as (Hi & _). apply B0 in Hi' as (Hi' & _). apply (g_away _ _ V b b' Hi Hi').
      - intros x Hx. destruct (g_held _ _ V x Hx) as (P & Q). split; [exact P|]. destruct Q as [(d & o & L & Hd & Ea & Hi & Hle)|(Hi & Hn)].
        + left. exists d, o, L. cbn [gDev]. rewrite ?D0. destruct (Z.eqb_spec (hDev x) dev) as [E|]; [|auto].
          rewrite E, Em in Hi. contradiction.
        + right. split; cbn [gBlocks gDev].
          * apply B0. split; [exact Hi|apply Hn].
          * intros k. rewrite ?D0. destruct (Z.eqb_spec k dev); [discriminate|apply Hn].
      - apply (g_addr _ _ V). }
    destruct (caData (gDev st dev)) as [d|] eqn:Ed.
    - destruct (g_arena _ _ V dev d Ed) as (G1 & _). pose proof (g_pos _ _ V _ G1) as (P & _). cbn [fst] in P.
      rewrite (cudaFree_ok st d _ P G1). cbn [bind].
      assert (B : forall b, In b (filter (fun b => negb (fst b =? d)) (gBlocks st)) <-> In b (gBlocks st) /\ Some d <> Some (fst b)).
      { intros b. rewrite In_drop. split; intros (B1 & B2); (split; [exact B1|congruence]). }
      eexists. split; [reflexivity|]. split; [|split; [reflexivity|split; [reflexivity|split; [|reflexivity]]]].
      + apply Hx; try reflexivity; cbn [set_blocks gBlocks]; [exact B|]. apply NoDup_map_filter. apply (g_nodup _ _ V).
      + cbn [set_dev set_blocks gBlocks]. intros b. apply B.
    - cbn [bind]. eexists. split; [reflexivity|]. split; [|split; [reflexivity|split; [reflexivity|split; [|reflexivity]]]].
      + apply Hx; try reflexivity; [|apply (g_nodup _ _ V)]. intros b. split; [intros B; split; [exact B|discriminate]|intros (B & _); exact B].
      + intros b B. split; [exact B|discriminate]. }
  destruct Hfree as (st1 & -> & V1 & H1 & A1 & B1 & D1). cbn [bind]. unfold cudaMalloc.
  destruct ans as [d|]; [|cbn [bind]; exists st1; auto]. cbn [bind].
  destruct (@wok_fill gpu m size) as (fc & -> & W); [lia|]. cbn [bind]. destruct (Hf d eq_refl) as (Hd & Haw).
  assert (Haw1 : forall b, In b (gBlocks st1) -> away (d, size) b).
  { intros b Hi. destruct (B1 b Hi) as (I1 & I2). apply Haw; assumption. }
  assert (Nb : ~ In d (map fst (gBlocks st1))).
  { intros Hi. apply in_map_iff in Hi as (b & E & Hi). pose proof (g_pos _ _ V1 b Hi). destruct (Haw1 b Hi) as [G|G]; cbn [fst snd] in G; lia. }
  assert (Hd1 : forall k, caData (gDev st1 k) = Some d -> False).
  { intros k E. destruct (g_arena _ _ V1 k d E) as (G & _). apply Nb. apply in_map_iff. eexists. split; [|exact G]. reflexivity. }
  assert (Al1 : caAl (gDev st1 dev) = []) by (rewrite D1; cbn [set_dev gDev]; rewrite Z.eqb_refl; reflexivity).
  eexists. split; [left; reflexivity|]. split; [|split; [exact H1|exact A1]].
  constructor; unfold set_dev, set_blocks; cbn [gDev gBlocks gHeld gActive].
  - intros k. destruct (Z.eqb_spec k dev); [exact Hb|apply (g_av _ _ V1)].
  - intros k. destruct (Z.eqb_spec k dev); [discriminate|apply (g_none _ _ V1)].
  - intros k a. destruct (Z.eqb_spec k dev) as [->|].
    + cbn [caData caSize caFc caAl]. intros E. injection E as <-. split; [left; reflexivity|exact W].
    + intros E. destruct (g_arena _ _ V1 k a E) as (G1 & G2). split; [right; exact G1|exact G2].
  - intros k k' a. destruct (Z.eqb_spec k dev) as [->|], (Z.eqb_spec k' dev) as [->|]; cbn [caData]; auto.
    + intros E E'. injection E as <-. destruct (Hd1 k' E').
    + intros E E'. injection E' as <-. destruct (Hd1 k E).
    + apply (g_one _ _ V1).
  - intros b [<-|Hi]; [cbn; lia|apply (g_pos _ _ V1 b Hi)].
  - cbn [map fst]. constructor; [exact Nb|apply (g_nodup _ _ V1)].
  - intros b b' [<-|Hi] [<-|Hi'] Nn; [contradiction|apply Haw1; exact Hi'| |apply (g_away _ _ V1); assumption].
    destruct (Haw1 b Hi) as [G|G]; [right|left]; exact G.
  - intros x Hx. destruct (g_held _ _ V1 x Hx) as (P & Q). split; [exact P|]. destruct Q as [(a & o & L & Ha & Ea & Hi & Hle)|(Hi & Hn)].
    + left. exists a, o, L. cbn [gDev]. destruct (Z.eqb_spec (hDev x) dev) as [E|]; [|auto].
      rewrite E, Al1 in Hi. contradiction.
    + right. split; cbn [gBlocks gDev]; [right; exact Hi|]. intros k. destruct (Z.eqb_spec k dev); [|apply Hn]. cbn [caData].
      intros X. injection X as ->. apply Nb. apply in_map_iff. eexists. split; [|exact Hi]. reflexivity.
  - apply (g_addr _ _ V1).
Qed.

(** *** allocate *)
Lemma gstep_alloc m st n sz ans : ginv m st -> gop_ok False m st (GAlloc n sz ans) ->
  (exists st' a, cu_allocate st n sz ans = Ok (st', a) /\ gHeld st' = gHeld st /\
     ginv m (set_held st' (mkHeld a (n * sz) (gActive st) :: gHeld st'))) \/
  (cu_allocate st n sz ans = Throw st /\ ans = None).
Proof.
  intros V Hop. pose proof Hop as (Hn & Hz & Hb & _). unfold cu_allocate. pose proof (pow_pos m).
  assert (Eu : u64 (n * sz) = n * sz) by (unfold u64; apply Z.mod_small; lia). rewrite Eu.
  set (dev := gActive st) in *. set (c := gDev st dev) in *.
  assert (Hm : (exists st' a, cudaMalloc st (n * sz) ans = Ok (st', a) /\ gHeld st' = gHeld st /\
     ginv m (set_held st' (mkHeld a (n * sz) dev :: gHeld st'))) \/ (cudaMalloc st (n * sz) ans = Throw st /\ ans = None)).
  { unfold cudaMalloc. destruct ans as [d|]; [|right; auto]. left. eexists. eexists. split; [reflexivity|]. split; [reflexivity|].
    apply (ginv_malloc m st n sz d V Hop). }
  destruct (caData c) as [d|] eqn:Ed; [|exact Hm].
  destruct (Z.ltb_spec (n * sz) (caSize c)) as [Hlt|]; [|exact Hm].
  destruct (@getAllocationLevel_ok gpu (n * sz)) as (lv & -> & Hge & _ & _); [lia|]. cbn [bind].
  destruct (g_arena _ _ V dev d Ed) as (Hin & W). fold c in Hin, W.
  assert (Hml : (m <= lv)%nat).
  { destruct (Nat.le_gt_cases m lv) as [G|G]; [exact G|].
    pose proof (Z.pow_lt_mono_r 2 (Z.of_nat lv) (Z.of_nat m) ltac:(lia) ltac:(lia) ltac:(lia)). lia. }
  destruct (@wok_take gpu _ _ _ _ lv W Hml) as [(o & fc1 & fc2 & Et & _ & W2 & Nf)|Et]; rewrite Et; cbn [bind]; [|exact Hm].
  rewrite (existsb_key_false (caAl c) o Nf). left. eexists. eexists. split; [reflexivity|]. split; [reflexivity|].
  destruct (wok_in _ _ _ _ o lv W2 (or_introl eq_refl)) as (G1 & G2). pose proof (pow_pos lv).
  assert (Dif : forall k, caData (if k =? dev then mkCa (Some d) (caSize c) fc2 ((o, lv) :: caAl c) (caAvail c) else gDev st k) = caData (gDev st k)).
  { intros k. destruct (Z.eqb_spec k dev) as [->|]; [symmetry; exact Ed|reflexivity]. }
  constructor; unfold set_held, set_dev; cbn [gDev gBlocks gHeld gActive].
  - intros k. destruct (Z.eqb_spec k dev) as [->|]; apply (g_av _ _ V).
  - intros k. destruct (Z.eqb_spec k dev) as [->|]; [discriminate|apply (g_none _ _ V)].
  - intros k a. rewrite Dif. intros E. destruct (Z.eqb_spec k dev) as [->|]; [|apply (g_arena _ _ V k a E)]. cbn [caSize caFc caAl].
    fold c in E. assert (a = d) by congruence. subst a. auto.
  - intros k k' a. rewrite !Dif. apply (g_one _ _ V).
  - apply (g_pos _ _ V).
  - apply (g_nodup _ _ V).
  - apply (g_away _ _ V).
  - intros x [<-|Hx].
    + cbn [hBytes]. split; [lia|]. left. exists d, o, lv. cbn [gDev hDev hAddr hBytes]. rewrite Z.eqb_refl. cbn [caData caAl].
      split; [reflexivity|]. split; [reflexivity|]. split; [left; reflexivity|lia].
    + destruct (g_held _ _ V x Hx) as (P & Q). split; [exact P|]. destruct Q as [(a & p & L & Ha & Ea & Hi & Hle)|(Hi & Hn')].
      * left. exists a, p, L. cbn [gDev]. rewrite Dif. split; [exact Ha|]. split; [exact Ea|]. split; [|exact Hle].
        destruct (Z.eqb_spec (hDev x) dev) as [E|]; [|exact Hi]. cbn [caAl]. right. rewrite E in Hi. exact Hi.
      * right. split; [exact Hi|]. cbn [gDev]. intros k. rewrite Dif. apply Hn'.
  - cbn [map hAddr]. constructor; [|apply (g_addr _ _ V)]. intros Hi. apply in_map_iff in Hi as (x & E & Hx).
    destruct (g_held _ _ V x Hx) as (P & [(a & p & L & Ha & Ea & Hi & Hle)|(Hi & Hn')]).
    + destruct (g_arena _ _ V _ a Ha) as (Hina & Wa). destruct (wok_in _ _ _ _ p L Wa Hi) as (Q1 & Q2). pose proof (pow_pos L).
      destruct (Z.eq_dec a d) as [->|Nd].
      * assert (Ek : hDev x = dev) by (apply (g_one _ _ V _ _ d Ha Ed)). rewrite Ek in Hi. fold c in Hi. apply Nf.
        apply in_map_iff. exists (p, L). split; [cbn; lia|exact Hi].
      * destruct (g_away _ _ V _ _ Hina Hin Nd) as [G|G]; cbn [fst snd] in G; lia.
    + assert (Nd : hAddr x <> d) by (intros X; apply (Hn' dev); fold c; congruence).
      destruct (g_away _ _ V _ _ Hi Hin Nd) as [G|G]; cbn [fst snd] in G; lia.
Qed.

(** *** free *)
Lemma In_drop_held l a x : In x (filter (fun y => negb (hAddr y =? a)) l) <-> In x l /\ hAddr x <> a.
Proof. rewrite filter_In, negb_true_iff, Z.eqb_neq. reflexivity. Qed.
Lemma gstep_free m st x : ginv m st -> In x (gHeld st) -> (in_arena st x -> hDev x = gActive st) ->
  exists st', cu_free st (hAddr x) = Ok st' /\ gHeld st' = gHeld st /\ gActive st' = gActive st /\
    ginv m (set_held st' (filter (fun y => negb (hAddr y =? hAddr x)) (gHeld st'))).
Proof.
  intros V Hx Hdev. unfold cu_free. set (dev := gActive st) in *. set (c := gDev st dev) in *.
  assert (Hown : own_block st x -> exists st', cudaFree st (hAddr x) = Ok st' /\ gHeld st' = gHeld st /\ gActive st' = gActive st /\
    ginv m (set_held st' (filter (fun y => negb (hAddr y =? hAddr x)) (gHeld st')))).
  { intros (Hi & Hn). pose proof (g_pos _ _ V _ Hi) as (P & _). cbn [fst] in P. rewrite (cudaFree_ok st _ _ P Hi).
    eexists. split; [reflexivity|]. split; [reflexivity|]. split; [reflexivity|].
    constructor; unfold set_held, set_blocks; cbn [gDev gBlocks gHeld gActive]; try apply V.
    - intros k d Hd. destruct (g_arena _ _ V k d Hd) as (G1 & G2). split; [|exact G2]. apply In_drop. split; [exact G1|].
      cbn [fst]. intros X. apply (Hn k). congruence.
    - intros b Hb. apply In_drop in Hb as (Hb & _). apply (g_pos _ _ V b Hb).
    - apply NoDup_map_filter. apply (g_nodup _ _ V).
    - intros b b' Hb Hb'. apply In_drop in Hb as (Hb & _). apply In_drop in Hb' as (Hb' & _). apply (g_away _ _ V b b' Hb Hb').
    - intros y Hy. apply In_drop_held in Hy as (Hy & Ny). destruct (g_held _ _ V y Hy) as (P' & [Q|(Q1 & Q2)]); split; auto.
      right. split; cbn [gBlocks gDev]; [|exact Q2]. apply In_drop. auto.
    - apply NoDup_map_filter. apply (g_addr _ _ V). }
  destruct (g_held _ _ V x Hx) as (Px & [Ax|Ox]).
  - specialize (Hdev Ax). destruct Ax as (d & o & L & Hd & Ea & Hi & Hle). rewrite Hdev in Hd, Hi. fold c in Hd, Hi.
    rewrite Hd. destruct (g_arena _ _ V dev d Hd) as (Hin & W). fold c in Hin, W. destruct (wok_in _ _ _ _ o L W Hi) as (G1 & G2).
    destruct (Z.leb_spec d (hAddr x)) as [_|]; [|lia].
    destruct (find (fun y => fst y =? hAddr x - d) (caAl c)) as [[o' lv]|] eqn:Ef.
    2:{ exfalso. pose proof (find_none _ _ Ef (o, L) Hi) as X. cbn [fst] in X. apply Z.eqb_neq in X. lia. }
    apply find_some in Ef as (Hi' & E'). apply Z.eqb_eq in E'. cbn [fst] in E'. assert (Eo : o' = o) by lia. clear E'. subst o'.
    assert (lv = L) by (apply (wok_key _ _ _ _ o lv L W Hi' Hi)). subst lv.
    destruct (@wok_give gpu _ _ _ _ o L W Hi) as (fc & -> & W'). cbn [bind].
    eexists. split; [reflexivity|]. split; [reflexivity|]. split; [reflexivity|].
    set (c' := mkCa (Some d) (caSize c) fc (filter (fun y => negb (fst y =? o)) (caAl c)) (caAvail c)).
    assert (Dif : forall k, caData (if k =? dev then c' else gDev st k) = caData (gDev st k)).
    { intros k. destruct (Z.eqb_spec k dev) as [->|]; [symmetry; exact Hd|reflexivity]. }
    constructor; unfold set_held, set_dev; cbn [gDev gBlocks gHeld gActive].
    + intros k. destruct (Z.eqb_spec k dev) as [->|]; apply (g_av _ _ V).
    + intros k. destruct (Z.eqb_spec k dev) as [->|]; [discriminate|apply (g_none _ _ V)].
    + intros k a. rewrite Dif. intros E. destruct (Z.eqb_spec k dev) as [->|]; [|apply (g_arena _ _ V k a E)].
      fold c in E. assert (a = d) by congruence. subst a. auto.
    + intros k k' a. rewrite !Dif. apply (g_one _ _ V).
    + apply (g_pos _ _ V).
    + apply (g_nodup _ _ V).
    + apply (g_away _ _ V).
    + intros y Hy. apply In_drop_held in Hy as (Hy & Ny). destruct (g_held _ _ V y Hy) as (P' & Q). split; [exact P'|].
      destruct Q as [(a & p & L' & Ha & Ey & Hp & Hle')|(Q1 & Q2)].
      * left. exists a, p, L'. cbn [gDev]. rewrite Dif. split; [exact Ha|]. split; [exact Ey|]. split; [|exact Hle'].
        destruct (Z.eqb_spec (hDev y) dev) as [E|]; [|exact Hp]. unfold c'. cbn [caAl]. rewrite E in Hp, Ha. fold c in Hp, Ha.
        apply In_drop. split; [exact Hp|]. cbn [fst]. intros ->. apply Ny. assert (a = d) by congruence. lia.
      * right. split; [exact Q1|]. cbn [gDev]. intros k. rewrite Dif. apply Q2.
    + apply NoDup_map_filter. apply (g_addr _ _ V).
  - specialize (Hown Ox). destruct (caData c) as [d|] eqn:Ed; [|exact Hown]. destruct (d <=? hAddr x); [|exact Hown].
    destruct (find (fun y => fst y =? hAddr x - d) (caAl c)) as [[o lv]|] eqn:Ef; [|exact Hown]. exfalso.
    apply find_some in Ef as (Hi & E). apply Z.eqb_eq in E. cbn [fst] in E.
    apply (own_not_in_arena m st x dev d o lv V Ox Ed Hi). lia.
Qed.

Lemma gop_weaken strict m st n sz ans : gop_ok strict m st (GAlloc n sz ans) -> gop_ok False m st (GAlloc n sz ans).
Proof. intros H. exact H. Qed.
Lemma gstep_ok m st o : ginv m st -> gop_ok True m st o ->
  exists st', (gstep st o = Ok st' \/ gstep st o = Throw st') /\ ginv m st'.
Proof.
  intros V Ho. destruct o as [dev size ans|n sz ans|a|dev]; cbn [gstep].
  - destruct (gstep_reserve True m st dev size ans V Ho) as (st' & H & V' & _). exists st'. auto.
  - destruct (gstep_alloc m st n sz ans V Ho) as [(st' & a & -> & Eh & V')|(-> & _)]; cbn [bind]; eexists; eauto.
  - destruct Ho as (x & Hx & <- & Hs). destruct (gstep_free m st x V Hx (fun _ => Hs I)) as (st' & -> & Eh & _ & V').
    cbn [bind]. eexists. split; [left; reflexivity|]. exact V'.
  - eexists. split; [left; reflexivity|]. constructor; cbn [gDev gBlocks gHeld]; apply V.
Qed.
Lemma grun_ok m : forall ops st, ginv m st -> gops_ok True m st ops -> exists st', grun st ops = Ok st' /\ ginv m st'.
Proof.
  induction ops as [|o t IH]; intros st V H; [exists st; auto|]. destruct H as (Ho & Ht). cbn [grun].
  destruct (gstep_ok m st o V Ho) as (st' & [E|E] & V'); rewrite E; apply IH; auto.
Qed.

(** A checker of the hypotheses, for the examples *)
Definition awayb (r r' : Z * Z) : bool := (fst r + snd r <=? fst r') || (fst r' + snd r' <=? fst r).
Definition gop_okb (strict : bool) (m : nat) (st : gpu) (o : gop) : bool :=
  match o with
  | GReserve dev size ans => (0 <=? size) &&
      match ans with
      | Some d => (0 <? d) && forallb (fun b => match caData (gDev st dev) with Some a => a =? fst b | None => false end || awayb (d, size) b) (gBlocks st)
      | None => true end
  | GAlloc n sz ans => (0 <? n) && (0 <? sz) && (2 ^ Z.of_nat m <=? n * sz) && (n * sz <? 2 ^ 63) &&
      match ans with Some d => (0 <? d) && forallb (awayb (d, n * sz)) (gBlocks st) | None => true end
  | GFree a => existsb (fun x => (hAddr x =? a) && (negb strict || (hDev x =? gActive st))) (gHeld st)
  | GActive _ => true
  end.
Fixpoint gops_okb (strict : bool) (m : nat) (st : gpu) (ops : list gop) : bool :=
  match ops with
  | [] => true
  | o :: t => gop_okb strict m st o && match gstep st o with Ok st' | Throw st' => gops_okb strict m st' t | _ => true end
  end.
Lemma awayb_ok r r' : awayb r r' = true -> away r r'.
Proof. unfold awayb, away. intros H. apply orb_prop in H as [H|H]; apply Z.leb_le in H; auto. Qed.
Lemma gop_okb_ok strict m st o : gop_okb strict m st o = true -> gop_ok (strict = true) m st o.
Proof.
  destruct o as [dev size ans|n sz ans|a|dev]; cbn [gop_okb gop_ok]; intros H.
  - apply andb_prop in H as [H1 H2]. split; [apply Z.leb_le; exact H1|]. intros d ->. apply andb_prop in H2 as [H2 H3].
    split; [apply Z.ltb_lt; exact H2|]. rewrite forallb_forall in H3. intros b Hb N. specialize (H3 b Hb). apply orb_prop in H3 as [H3|H3].
    + destruct (caData (gDev st dev)) as [a|]; [|discriminate]. apply Z.eqb_eq in H3. congruence.
    + apply awayb_ok. exact H3.
  - rewrite !andb_true_iff in H. destruct H as ((((H1 & H2) & H3) & H4) & H5). apply Z.ltb_lt in H1, H2, H4. apply Z.leb_le in H3.
    split; [exact H1|]. split; [exact H2|]. split; [lia|]. intros d ->. apply andb_prop in H5 as [H5 H6].
    split; [apply Z.ltb_lt; exact H5|]. rewrite forallb_forall in H6. intros b Hb. apply awayb_ok. apply H6. exact Hb.
  - apply existsb_exists in H as (x & Hx & E). apply andb_prop in E as [E1 E2]. exists x. split; [exact Hx|]. split; [apply Z.eqb_eq; exact E1|].
    intros ->. apply Z.eqb_eq. exact E2.
  - exact I.
Qed.
Lemma gops_okb_ok strict m : forall ops st, gops_okb strict m st ops = true -> gops_ok (strict = true) m st ops.
Proof.
  induction ops as [|o t IH]; intros st H; cbn [gops_okb gops_ok] in *; [exact I|].
  apply andb_prop in H as [H1 H2]. split; [apply gop_okb_ok; exact H1|]. intros st' [E|E]; rewrite E in H2; apply IH; exact H2.
Qed.
Lemma gops_mono (P Q : Prop) m : (Q -> P) -> forall ops st, gops_ok P m st ops -> gops_ok Q m st ops.
Proof.
  intros PQ. induction ops as [|o t IH]; intros st H; [exact I|]. destruct H as (H1 & H2). split.
  - destruct o; cbn [gop_ok] in *; auto. destruct H1 as (x & X1 & X2 & X3). exists x. auto.
  - intros st' E. apply IH. apply H2. exact E.
Qed.

(** ** C152 *)
(** The full claim: in every history the memory a program holds is memory of the driver that
    has not been given back, and can be freed. *)
Definition C152_claim : Prop :=
  forall avail ops, (forall dev, avail dev < 2 ^ 63) -> gops_ok False 0 (gpu_new avail) ops ->
    exists st, grun (gpu_new avail) ops = Ok st /\
      forall x, In x (gHeld st) -> backed st x /\ exists st', cu_free st (hAddr x) = Ok st'.
(** Device 0 has reserved memory and two ranges in it; the first is freed while device 1 is
    active. *)
Definition yhist : list gop :=
  [GReserve 0 64 (Some 1024); GAlloc 8 1 None; GAlloc 8 1 None; GActive 1; GFree 1024].
Theorem C152_cuda_memory_refuted : ~ C152_claim.
Proof.
  intros H. destruct (H xav yhist) as (st & E & G).
  - intros dev. unfold xav. lia.
  - apply (gops_mono (false = true) False); [contradiction|]. apply gops_okb_ok. vm_compute. reflexivity.
  - assert (X : match grun (gpu_new xav) yhist with Ok s => gHeld s = [mkHeld 1032 8 0] /\ gBlocks s = [] | _ => False end)
      by (vm_compute; split; reflexivity).
    rewrite E in X. destruct X as (X1 & X2). destruct (G (mkHeld 1032 8 0)) as ((b & Hb & _) & _); [rewrite X1; left; reflexivity|].
    rewrite X2 in Hb. contradiction.
Qed.
(** What is proved: the claim for memory that is freed while the device is active that was
    active when it was allocated; also, the ranges do not overlap. *)
Theorem C152_cuda_memory_partial : forall avail ops, (forall dev, avail dev < 2 ^ 63) -> gops_ok True 0 (gpu_new avail) ops ->
  exists st, grun (gpu_new avail) ops = Ok st /\
    (forall x, In x (gHeld st) -> backed st x /\
       (hDev x = gActive st -> exists st', cu_free st (hAddr x) = Ok st') /\
       forall y, In y (gHeld st) -> hAddr y <> hAddr x -> away (hAddr x, hBytes x) (hAddr y, hBytes y)) /\
    (forall n sz h, gop_ok True 0 st (GAlloc n sz (Some h)) -> exists st' a, cu_allocate st n sz (Some h) = Ok (st', a) /\
       forall y, In y (gHeld st) -> away (a, n * sz) (hAddr y, hBytes y)).
Proof.
  intros avail ops Ha Ho. destruct (grun_ok 0 ops _ (ginv_new 0 avail Ha) Ho) as (st & E & V). exists st. split; [exact E|]. split.
  - intros x Hx. split; [apply (ginv_backed 0); assumption|]. split.
    + intros Hd. destruct (gstep_free 0 st x V Hx (fun _ => Hd)) as (st' & Ef & _). exists st'. exact Ef.
    + intros y Hy N. apply (ginv_disjoint 0 st x y V Hx Hy). auto.
  - intros n sz h Hop. destruct (gstep_alloc 0 st n sz (Some h) V Hop) as [(st' & a & Ea & Eh & V')|(_ & X)]; [|discriminate].
    exists st', a. split; [exact Ea|]. intros y Hy.
    apply (ginv_disjoint 0 _ (mkHeld a (n * sz) (gActive st)) y V'); cbn [set_held gHeld].
    + left. reflexivity.
    + right. rewrite Eh. exact Hy.
    + pose proof (g_addr _ _ V') as Nd. cbn [set_held gHeld map] in Nd. inversion Nd as [|? ? N1 _]; subst. cbn [hAddr] in *.
      intros ->. apply N1. rewrite Eh. apply in_map. exact Hy.
Qed.
(** What happens when another device is active: a range at the start of the reserved memory of
    its device takes the whole reserved memory with it, and then no range in it is backed,
    though the allocator keeps using it; any other range of reserved memory throws (from the
    destructor of an image, which ends the program) and stays allocated. *)
Theorem C152_other_device_partial : forall avail ops st x d other, (forall dev, avail dev < 2 ^ 63) ->
  gops_ok True 0 (gpu_new avail) ops -> grun (gpu_new avail) ops = Ok st ->
  In x (gHeld st) -> in_arena st x -> caData (gDev st (hDev x)) = Some d -> other <> hDev x ->
  let st1 := mkGpu (gDev st) other (gBlocks st) (gHeld st) in
  (hAddr x <> d -> cu_free st1 (hAddr x) = Throw st1) /\
  (hAddr x = d -> exists st2, cu_free st1 (hAddr x) = Ok st2 /\
     caData (gDev st2 (hDev x)) = Some d /\
     forall y, In y (gHeld st) -> in_arena st y -> hDev y = hDev x -> ~ backed st2 y).
Proof.
  intros avail ops st x d other Ha Ho E Hx Ax Hd No st1.
  destruct (grun_ok 0 ops _ (ginv_new 0 avail Ha) Ho) as (s & E' & V). assert (s = st) by congruence. subst s.
  destruct Ax as (d0 & o & L & Hd0 & Ea & Hi & Hle). assert (d0 = d) by congruence. subst d0.
  destruct (g_arena _ _ V _ d Hd) as (Hin & W). destruct (wok_in _ _ _ _ o L W Hi) as (G1 & G2). pose proof (pow_pos L) as HL.
  assert (Hc : cu_free st1 (hAddr x) = cudaFree st1 (hAddr x)).
  { unfold cu_free. cbn [st1 gActive gDev]. destruct (caData (gDev st other)) as [d'|] eqn:Ed'; [|reflexivity].
    destruct (Z.leb_spec d' (hAddr x)); [|reflexivity].
    destruct (find (fun y => fst y =? hAddr x - d') (caAl (gDev st other))) as [[o' lv]|] eqn:Ef; [|reflexivity]. exfalso.
    apply find_some in Ef as (Hi' & Eo). apply Z.eqb_eq in Eo. cbn [fst] in Eo.
    destruct (g_arena _ _ V _ d' Ed') as (Hin' & W'). destruct (wok_in _ _ _ _ o' lv W' Hi') as (G1' & G2'). pose proof (pow_pos lv).
    assert (X : (d', caSize (gDev st other)) = (d, caSize (gDev st (hDev x)))).
    { apply (arena_addr 0 st (hDev x) d o L); auto. cbn [fst snd]. lia. }
    injection X as X _. subst d'. apply No. apply (g_one _ _ V other (hDev x) d Ed' Hd). }
  rewrite Hc. unfold cudaFree. pose proof (g_pos _ _ V _ Hin) as (P1 & _). cbn [fst] in P1.
  destruct (Z.eqb_spec (hAddr x) 0); [lia|]. cbn [st1 gBlocks]. split.
  - intros N. rewrite existsb_key_false; [reflexivity|]. intros Hb. apply in_map_iff in Hb as (b & Eb & Hb).
    pose proof (g_pos _ _ V b Hb). assert (X : b = (d, caSize (gDev st (hDev x)))).
    { apply (arena_addr 0 st (hDev x) d o L); auto. lia. }
    subst b. cbn [fst] in Eb. congruence.
  - intros Exd. assert (X : existsb (fun b => fst b =? hAddr x) (gBlocks st) = true).
    { apply existsb_key. apply in_map_iff. eexists. split; [|exact Hin]. cbn. congruence. }
    rewrite X. eexists. split; [reflexivity|]. cbn [set_blocks st1 gDev gBlocks]. split; [exact Hd|].
    intros y Hy (d2 & o2 & L2 & Hd2 & Ea2 & Hi2 & Hle2) Edev (b & Hb & B1 & B2). cbn [set_blocks st1 gBlocks] in Hb.
    apply In_drop in Hb as (Hb & Nb). rewrite Edev in Hd2, Hi2. assert (d2 = d) by congruence. subst d2.
    destruct (g_held _ _ V y Hy) as (Py & _).
    assert (Y : b = (d, caSize (gDev st (hDev x)))).
    { apply (arena_addr 0 st (hDev x) d o2 L2); auto. lia. }
    subst b. cbn [fst] in Nb. congruence.
Qed.
Definition yhist2 : list gop :=
  [GReserve 0 64 (Some 1024); GAlloc 8 1 None; GAlloc 8 1 None; GReserve 0 32 (Some 1024); GActive 1; GAlloc 100 1 (Some 4096);
   GReserve 1 128 (Some 2048); GAlloc 3 4 None; GAlloc 500 1 None; GFree 4096; GActive 0; GFree 1024].
Example C152_case : gops_ok True 0 (gpu_new xav) yhist2.
Proof. apply (gops_mono (true = true) True); [reflexivity|]. apply gops_okb_ok. vm_compute. reflexivity. Qed.
Example C152_case_run : match grun (gpu_new xav) yhist2 with
  | Ok st => gHeld st = [mkHeld 2048 12 1; mkHeld 1032 8 0] /\ gBlocks st = [(2048, 128); (1024, 64)] | _ => False end.
Proof. vm_compute. split; reflexivity. Qed.
(** The second range of device 0 freed while device 1 is active *)
Example C152_case_throw : match grun (gpu_new xav) [GReserve 0 64 (Some 1024); GAlloc 8 1 None; GAlloc 8 1 None; GActive 1] with
  | Ok st => match cu_free st 1032 with Throw _ => True | _ => False end | _ => False end.
Proof. vm_compute. exact I. Qed.
Print Assumptions C152_cuda_memory_refuted.
Print Assumptions C152_cuda_memory_partial.
Print Assumptions C152_other_device_partial.

(** ** C153 *)
(** The full claim: memory for an element of 2^k bytes (up to 32) is at a multiple of 2^k, when
    cudaMalloc returns multiples of 256. *)
Definition C153_claim : Prop :=
  forall avail ops st n k h, (forall dev, avail dev < 2 ^ 63) -> gops_ok True 0 (gpu_new avail) ops ->
    grun (gpu_new avail) ops = Ok st ->
    (forall dev d, caData (gDev st dev) = Some d -> d mod 256 = 0) ->
    0 < n -> 0 <= k <= 5 -> gop_ok True 0 st (GAlloc n (2 ^ k) (Some h)) -> h mod 2 ^ k = 0 ->
    exists st' a, cu_allocate st n (2 ^ k) (Some h) = Ok (st', a) /\ a mod 2 ^ k = 0.
(** Four ranges of two bytes; the second and the third are freed and become one chunk. *)
Definition zhist2 : list gop :=
  [GReserve 0 8 (Some 1024); GAlloc 2 1 None; GAlloc 2 1 None; GAlloc 2 1 None; GAlloc 2 1 None; GFree 1026; GFree 1028].
Theorem C153_cuda_alignment_refuted : ~ C153_claim.
Proof.
  intros H. destruct (grun (gpu_new xav) zhist2) as [st| | |] eqn:E; try (vm_compute in E; discriminate).
  assert (X : match grun (gpu_new xav) zhist2 with
    | Ok s => gop_okb true 0 s (GAlloc 1 4 (Some 4096)) && match cu_allocate s 1 4 (Some 4096) with Ok (_, a) => a =? 1026 | _ => false end
    | _ => false end = true) by (vm_compute; reflexivity).
  rewrite E in X. apply andb_prop in X as [X1 X2].
  assert (Ho : gops_ok True 0 (gpu_new xav) zhist2).
  { apply (gops_mono (true = true) True); [reflexivity|]. apply gops_okb_ok. vm_compute. reflexivity. }
  destruct (H xav zhist2 st 1 2 4096) as (st' & a & Ea & Em); try lia; try reflexivity; try assumption.
  - intros dev d Hd.
    assert (Y : match grun (gpu_new xav) zhist2 with
      | Ok s => gDev s = gDev (set_dev (gpu_new xav) 0 (gDev s 0)) \/ forall k, k <> 0 -> caData (gDev s k) = None | _ => False end).
    { vm_compute. right. intros k N. destruct k; [contradiction|reflexivity|reflexivity]. }
    assert (Y0 : match grun (gpu_new xav) zhist2 with Ok s => caData (gDev s 0) = Some 1024 | _ => False end) by (vm_compute; reflexivity).
    rewrite E in Y, Y0. destruct (Z.eq_dec dev 0) as [->|N].
    + rewrite Y0 in Hd. injection Hd as <-. reflexivity.
    + destruct Y as [Y|Y].
      * rewrite Y in Hd. cbn [set_dev gDev gpu_new] in Hd. destruct (Z.eqb_spec dev 0); [contradiction|discriminate].
      * rewrite (Y dev N) in Hd. discriminate.
  - change (2 ^ 2) with 4. apply (gop_okb_ok true) in X1. destruct X1 as (X1 & X3 & X4 & X5). split; [exact X1|]. auto.
  - change (2 ^ 2) with 4 in *. rewrite Ea in X2. apply Z.eqb_eq in X2. subst a. discriminate.
Qed.
(** What is proved: when no request of the history is smaller than 2^m bytes, every range in
    the reserved memory is at a multiple of 2^m; so a program that uses elements of one size
    only gets aligned memory. *)
Definition big_op (m : nat) (o : aop) : Prop :=
  match o with AAlloc n sz _ => 2 ^ Z.of_nat m <= n * sz | _ => True end.
Lemma arun_wok m : forall ops st live, ainv st live -> (forall d, adata st = Some d -> wok m (asize st) (afc st) (aallocd st)) ->
  aops_ok (st, live) ops -> Forall (big_op m) ops ->
  exists st' live', arun (st, live) ops = Ok (st', live') /\ ainv st' live' /\
    (forall d, adata st' = Some d -> wok m (asize st') (afc st') (aallocd st')).
Proof.
  induction ops as [|o t IH]; intros st live V HW H HB; [exists st, live; auto|]. destruct H as (Ho & Ht).
  inversion HB as [|? ? HB1 HB2]; subst. cbn [arun].
  destruct o as [size d|n sz h|a].
  - destruct (step_reserve st live size d V Ho) as (st' & E & V'). rewrite E. cbn [bind]. apply IH; [exact V'| |apply Ht; exact E|exact HB2].
    destruct Ho as (Hs & Hs2 & Hd & Hal & Hlive). cbn [astep] in E. unfold reserve in E. destruct (Z.eqb_spec size 0) as [E0|N0]; [lia|]. cbn [negb] in E.
    destruct (Z.eqb_spec size (asize st)) as [Es|N]; [cbn [bind] in E; injection E as <-; exact HW|].
    rewrite (v_lock _ _ V), Hal in E. destruct (@wok_fill astate m size) as (fc & Ef & W); [lia|]. rewrite Ef in E. cbn [bind] in E.
    injection E as <-. cbn [adata asize afc aallocd]. intros _ _. exact W.
  - destruct (step_alloc st live n sz h V Ho) as (st' & a & E & V').
    assert (E' : astep (st, live) (AAlloc n sz h) = Ok (st', (a, n * sz) :: live)) by (cbn [astep]; rewrite E; reflexivity).
    rewrite E'. cbn [bind]. apply IH; [exact V'| |apply Ht; exact E'|exact HB2].
    destruct Ho as (Hn & Hz & Hb & _). cbn [big_op] in HB1. pose proof (pow_pos m). unfold allocate in E. rewrite (v_lock _ _ V) in E.
    assert (Hheap : forall s', (guard (n * sz <? 2 ^ 63) with st;
      Ok (mkA (adata st) (asize st) (afc st) (aallocd st) false ((h, n * sz) :: aheap st), h)) = @Ok astate _ s' ->
      forall d, adata (fst s') = Some d -> wok m (asize (fst s')) (afc (fst s')) (aallocd (fst s'))).
    { intros s' Es. destruct (n * sz <? 2 ^ 63); [|discriminate]. injection Es as <-. exact HW. }
    destruct (adata st) as [d|] eqn:Ed; [|apply (Hheap _ E)].
    assert (Eu : u64 (n * sz) = n * sz) by (unfold u64; apply Z.mod_small; lia). rewrite Eu in E.
    destruct (Z.ltb_spec (n * sz) (asize st)) as [Hlt|]; [|apply (Hheap _ E)].
    destruct (@getAllocationLevel_ok astate (n * sz)) as (lv & El & Hge & _ & _); [lia|]. rewrite El in E. cbn [bind] in E.
    assert (Hml : (m <= lv)%nat).
    { destruct (Nat.le_gt_cases m lv) as [G|G]; [exact G|].
      pose proof (Z.pow_lt_mono_r 2 (Z.of_nat lv) (Z.of_nat m) ltac:(lia) ltac:(lia) ltac:(lia)). lia. }
    destruct (@wok_split astate m _ _ _ lv (HW d eq_refl) Hml) as [(fc' & o & rest & Es & Vl & _ & W2 & Nf)|Es]; rewrite Es in E; cbn [bind] in E;
      [|apply (Hheap _ E)].
    rewrite Vl, (existsb_key_false (aallocd st) o Nf) in E. injection E as <- <-. cbn [adata asize afc aallocd]. intros _ _. exact W2.
  - destruct (step_free st live a V Ho) as (st' & E & V').
    assert (E' : astep (st, live) (AFree a) = Ok (st', filter (fun b => negb (fst b =? a)) live)) by (cbn [astep]; rewrite E; reflexivity).
    rewrite E'. cbn [bind]. apply IH; [exact V'| |apply Ht; exact E'|exact HB2].
    unfold free in E. rewrite (v_lock _ _ V) in E.
    assert (Hheap : (if a =? 0 then Ok st else if existsb (fun b => fst b =? a) (aheap st)
      then Ok (mkA (adata st) (asize st) (afc st) (aallocd st) false (filter (fun b => negb (fst b =? a)) (aheap st))) else UB) = @Ok astate _ st' ->
      forall d, adata st' = Some d -> wok m (asize st') (afc st') (aallocd st')).
    { intros Es. destruct (a =? 0); [injection Es as <-; exact HW|]. destruct (existsb _ _); [|discriminate]. injection Es as <-. exact HW. }
    destruct (adata st) as [d|] eqn:Ed; [|apply (Hheap E)]. destruct (aligned d <=? a); [|apply (Hheap E)].
    destruct (find (fun c => fst c =? a - aligned d) (aallocd st)) as [[o lv]|] eqn:Ef; [|apply (Hheap E)].
    apply find_some in Ef as (Hi & _). destruct (@wok_give astate m _ _ _ o lv (HW d eq_refl) Hi) as (fc & Eg & W').
    unfold give_chunk in Eg. destruct (lv <? length (afc st))%nat; [|discriminate]. rewrite Eg in E. cbn [bind] in E. injection E as <-.
    cbn [adata asize afc aallocd]. intros _ _. exact W'.
Qed.
(** The part of C85 (PropsD.v) that holds: the same for the CPU allocator, when no request of
    the history is smaller than 2^m bytes. *)
Theorem C85_alignment_partial : forall (m : nat) ops, (m <= 5)%nat -> aops_ok (ainit, []) ops -> Forall (big_op m) ops ->
  exists st live, arun (ainit, []) ops = Ok (st, live) /\
    forall a n, In (a, n) live -> In (a, n) (aheap st) \/ a mod 2 ^ Z.of_nat m = 0.
Proof.
  intros m ops Hm Ho HB. destruct (arun_wok m ops ainit [] ainv_init) as (st & live & E & V & W); try assumption; [discriminate|].
  exists st, live. split; [exact E|]. intros a n Hi. destruct (v_live _ _ V a n Hi) as (_ & _ & [(d & o & L & Hd & -> & Hi' & _)|Hh]); [|auto].
  right. pose proof (pow_pos m). apply Z.mod_divide; [lia|]. apply Z.divide_add_r.
  - apply (Z.divide_trans _ (2 ^ Z.of_nat 5)); [apply pow_dvd; exact Hm|]. change (2 ^ Z.of_nat 5) with 32.
    unfold aligned. destruct (Z.eqb_spec (d mod 32) 0) as [E0|N0]; [apply Z.mod_divide; lia|].
    exists (d / 32 + 1). pose proof (Z.div_mod d 32). lia.
  - apply (w_al _ _ _ _ (W d Hd) o L Hi').
Qed.
Theorem C153_cuda_alignment_partial : forall (m : nat) avail ops, (m <= 8)%nat -> (forall dev, avail dev < 2 ^ 63) ->
  gops_ok True m (gpu_new avail) ops ->
  exists st, grun (gpu_new avail) ops = Ok st /\
    ((forall b, In b (gBlocks st) -> fst b mod 256 = 0) -> forall x, In x (gHeld st) -> hAddr x mod 2 ^ Z.of_nat m = 0).
Proof.
  intros m avail ops Hm Ha Ho. destruct (grun_ok m ops _ (ginv_new m avail Ha) Ho) as (st & E & V). exists st. split; [exact E|].
  intros Hb x Hx. pose proof (pow_pos m). apply Z.mod_divide; [lia|].
  assert (G : forall a, a mod 256 = 0 -> (2 ^ Z.of_nat m | a)).
  { intros a Ea. apply (Z.divide_trans _ (2 ^ Z.of_nat 8)); [apply pow_dvd; exact Hm|]. change (2 ^ Z.of_nat 8) with 256.
    apply Z.mod_divide; lia. }
  destruct (g_held _ _ V x Hx) as (_ & [(d & o & L & Hd & -> & Hi & _)|(Hi & _)]).
  - destruct (g_arena _ _ V _ d Hd) as (Hin & W). apply Z.divide_add_r; [apply G; apply (Hb _ Hin)|apply (w_al _ _ _ _ W o L Hi)].
  - apply G. apply (Hb _ Hi).
Qed.
Definition zhist3 : list aop :=
  [AReserve 100 1024; AAlloc 1 4 4096; AAlloc 3 4 4096; AAlloc 2 4 4096; AFree 1120; AAlloc 5 4 8192; AAlloc 1 4 8192].
Example C85_case : aops_ok (ainit, []) zhist3 /\ Forall (big_op 2) zhist3.
Proof. split; [apply aops_okb_ok; vm_compute; reflexivity|]. unfold zhist3. repeat constructor; cbn; lia. Qed.
Example C153_cuda_case : gops_ok True 2 (gpu_new xav)
  [GReserve 0 100 (Some 1024); GAlloc 1 4 None; GAlloc 3 4 None; GFree 1120; GAlloc 5 4 None; GAlloc 50 4 (Some 4096)].
Proof. apply (gops_mono (true = true) True); [reflexivity|]. apply gops_okb_ok. vm_compute. reflexivity. Qed.
Print Assumptions C153_cuda_alignment_refuted.
Print Assumptions C85_alignment_partial.
Print Assumptions C153_cuda_alignment_partial.

(** ** C154 *)
(** After a reserve that throws (nothing asked for, more than the device has, ranges still in
    use, a refusal by the driver) the program holds what it held, all of it can be freed, and
    allocations succeed when the driver allows. *)
Theorem C154_opencl_reserve_throws : forall avail align k ops st dev size ok st', odevs_ok avail align k ->
  oops_ok False (ocl_new avail align) ops -> orun (ocl_new avail align) ops = Ok st -> 0 <= size ->
  cl_reserve st dev size ok = Throw st' ->
  oHeld st' = oHeld st /\ (forall h, In h (map fst (oHeld st)) -> exists st2, cl_free st' h = Ok st2) /\
  forall n sz h, oop_ok False st (OAlloc n sz (Some h)) -> exists st2, cl_allocate st' n sz (Some h) = Ok (st2, h).
Proof.
  intros avail align k ops st dev size ok st' Hd Ho E Hs Et.
  destruct (orun_ok False k avail ops _ _ (oinv_new False avail align k Hd) Ho) as (lost & s & E' & V).
  assert (s = st) by congruence. subst s.
  destruct (ostep_reserve False k avail lost st dev size ok V Hs) as (st1 & [E1|E1] & (lost' & V1) & Hh & _); [congruence|].
  assert (st1 = st') by congruence. subst st1. split; [exact Hh|]. split.
  - intros h Hi. destruct (ostep_free False k avail lost' st' h V1) as (l2 & st2 & Ef & _); [split; [rewrite Hh; exact Hi|contradiction]|].
    exists st2. exact Ef.
  - intros n sz h Hop. destruct (ostep_alloc False k avail lost' st' n sz (Some h) V1) as (l2 & st2 & _ & _ & [(h' & Ea & Eh)|(_ & Eh & _)]).
    + cbn [oop_ok] in *. rewrite Hh. exact Hop.
    + injection Eh as <-. exists st2. exact Ea.
    + discriminate.
Qed.
Theorem C154_cuda_reserve_throws : forall avail ops st dev size ans st', (forall dev, avail dev < 2 ^ 63) ->
  gops_ok True 0 (gpu_new avail) ops -> grun (gpu_new avail) ops = Ok st -> gop_ok True 0 st (GReserve dev size ans) ->
  cu_reserve st dev size ans = Throw st' ->
  gHeld st' = gHeld st /\
  (forall x, In x (gHeld st) -> backed st' x /\ (hDev x = gActive st -> exists st2, cu_free st' (hAddr x) = Ok st2)) /\
  forall n sz h, gop_ok True 0 st' (GAlloc n sz (Some h)) -> exists st2 a, cu_allocate st' n sz (Some h) = Ok (st2, a).
Proof.
  intros avail ops st dev size ans st' Ha Ho E Hop Et. destruct (grun_ok 0 ops _ (ginv_new 0 avail Ha) Ho) as (s & E' & V).
  assert (s = st) by congruence. subst s.
  destruct (gstep_reserve True 0 st dev size ans V Hop) as (st1 & [E1|E1] & V1 & Hh & Hact); [congruence|].
  assert (st1 = st') by congruence. subst st1. split; [exact Hh|]. split.
  - intros x Hx. rewrite <- Hh in Hx. split; [apply (ginv_backed 0); assumption|]. intros Hd.
    destruct (gstep_free 0 st' x V1 Hx) as (st2 & Ef & _); [intros _; congruence|]. exists st2. exact Ef.
  - intros n sz h Hal. destruct (gstep_alloc 0 st' n sz (Some h) V1 Hal) as [(st2 & a & Ea & _)|(_ & X)]; [|discriminate].
    exists st2, a. exact Ea.
Qed.
(** A reserve the library refuses, after one that succeeded: the old memory is gone, the
    allocator works without. *)
Example C154_case : match orun (ocl_new xav xal) [OReserve 0 512 true; OAlloc 300 2 (Some 11)] with
  | Ok st => match cl_reserve st 0 256 false with
             | Throw st' => oaData (oDev st' 0) = false /\ match cl_allocate st' 4 1 (Some 12) with Ok (_, h) => h = 12 | _ => False end
             | _ => False end
  | _ => False end.
Proof. vm_compute. split; reflexivity. Qed.
Example C154_cuda_case : match grun (gpu_new xav) [GReserve 0 64 (Some 1024); GAlloc 8 1 None] with
  | Ok st => match cu_reserve st 0 128 (Some 4096) with Throw st' => gHeld st' = [mkHeld 1024 8 0] | _ => False end
  | _ => False end.
Proof. vm_compute. reflexivity. Qed.
Print Assumptions C154_opencl_reserve_throws.
Print Assumptions C154_cuda_reserve_throws.
