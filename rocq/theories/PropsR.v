(** Properties C79 to C81 and C107 to C111: function tables and the facade. *)
From Coq Require Import ZArith List Bool Lia Sorting.Sorted Sorting.Permutation.
From Verif Require Import Base Table.
Import ListNotations.
Open Scope Z_scope.

(** ** Histories *)

(** The calls that change the registry *)
Inductive op :=
| RTable (ty : Z) (t : table) (force : bool)
| RConvert (f tin tout : Z)
| REnable (e : bool).
Definition step (r : registry) (o : op) : registry :=
  match o with
  | RTable ty t force => setFunctionTable r ty t force
  | RConvert f a b => match setConvertFunction r f a b with Ok r' => r' | Throw r' => r' | _ => r end
  | REnable e => enable r e
  end.
Definition run (l : list op) : registry := fold_left step l rempty.

(** What was registered for the function f of the image type ty, oldest first, with the flag *)
Definition entries (ty : Z) (f : fname) (l : list op) : list (option Z * bool) :=
  flat_map (fun o => match o with RTable ty' t force => if ty =? ty' then [(t f, force)] else [] | _ => [] end) l.
Definition types (l : list op) : list Z := flat_map (fun o => match o with RTable ty _ _ => [ty] | _ => [] end) l.

(** The rule of the merge: the last forced function, otherwise the first function *)
Definition present (e : option Z * bool) : bool := match fst e with Some _ => true | None => false end.
Definition winner (l : list (option Z * bool)) : option Z :=
  match find (fun e => present e && snd e) (rev l) with
  | Some e => fst e
  | None => match find present l with Some e => fst e | None => None end
  end.

Lemma find_app {T} (p : T -> bool) l l' : find p (l ++ l') = match find p l with Some x => Some x | None => find p l' end.
Proof. induction l as [|x l IH]; [reflexivity|]. cbn [app find]. destruct (p x); [reflexivity|exact IH]. Qed.

Lemma winner_snoc l x b : winner (l ++ [(x, b)]) = setFunction (winner l) x b.
Proof.
  unfold winner. rewrite rev_unit, find_app. cbn [find]. unfold present at 1 4. cbn [fst snd].
  destruct (find (fun e => present e && snd e) (rev l)) as [[y c]|] eqn:F.
  - apply find_some in F. destruct F as (_ & F). unfold present in F. cbn [fst snd] in F |- *. destruct y as [y|]; [|discriminate F].
    destruct x as [x|], b; reflexivity.
  - destruct (find present l) as [[y c]|] eqn:G.
    + apply find_some in G. destruct G as (_ & G). unfold present in G. cbn [fst snd] in G |- *. destruct y as [y|]; [|discriminate G].
      destruct x as [x|], b; reflexivity.
    + destruct x as [x|], b; reflexivity.
Qed.

Lemma find_put {V} k k' (v : V) l : find_key k (put_key k' v l) = if k =? k' then Some v else find_key k l.
Proof.
  induction l as [|[k2 v2] l IH]; cbn [put_key find_key]; [reflexivity|].
  destruct (Z.ltb_spec k' k2); [reflexivity|]. destruct (Z.eqb_spec k' k2) as [->|].
  - cbn [find_key]. destruct (Z.eqb_spec k k2); reflexivity.
  - cbn [find_key]. destruct (Z.eqb_spec k k2) as [->|].
    + destruct (Z.eqb_spec k2 k'); [lia|reflexivity].
    + exact IH.
Qed.

Lemma entries_snoc ty f l o : entries ty f (l ++ [o]) =
  entries ty f l ++ match o with RTable ty' t force => if ty =? ty' then [(t f, force)] else [] | _ => [] end.
Proof. unfold entries. rewrite flat_map_app. cbn [flat_map]. rewrite app_nil_r. reflexivity. Qed.
Lemma types_snoc l o : types (l ++ [o]) = types l ++ match o with RTable ty _ _ => [ty] | _ => [] end.
Proof. unfold types. rewrite flat_map_app. cbn [flat_map]. rewrite app_nil_r. reflexivity. Qed.
Lemma run_snoc l o : run (l ++ [o]) = step (run l) o.
Proof. unfold run. rewrite fold_left_app. reflexivity. Qed.
Lemma tables_convert r f a b : rtables (step r (RConvert f a b)) = rtables r.
Proof. unfold step, setConvertFunction. destruct (negb (a =? b)); reflexivity. Qed.

Lemma entries_none ty f l : ~ In ty (types l) -> entries ty f l = [].
Proof.
  induction l as [|o l IH]; intros H; [reflexivity|]. unfold entries, types in *. cbn [flat_map] in *.
  rewrite in_app_iff in H. rewrite IH by tauto. destruct o as [ty' t force| |]; try reflexivity.
  destruct (Z.eqb_spec ty ty') as [->|]; [|reflexivity]. exfalso. apply H. left. left. reflexivity.
Qed.

(** What every history leaves. *)
Lemma history l ty :
  match find_key ty (rtables (run l)) with
  | None => ~ In ty (types l)
  | Some t => In ty (types l) /\ forall f,
      t f = if merged f then winner (entries ty f l) else match entries ty f l with e :: _ => fst e | [] => None end
  end.
Proof.
  induction l as [|o l IH] using rev_ind; [intros []|].
  rewrite run_snoc, types_snoc.
  assert (Same : rtables (step (run l) o) = rtables (run l) -> (forall f, entries ty f (l ++ [o]) = entries ty f l) ->
    (In ty (types l ++ match o with RTable ty _ _ => [ty] | _ => [] end) <-> In ty (types l)) ->
    match find_key ty (rtables (step (run l) o)) with
    | Some t => In ty (types l ++ match o with RTable ty _ _ => [ty] | _ => [] end) /\
        (forall f, t f = if merged f then winner (entries ty f (l ++ [o])) else match entries ty f (l ++ [o]) with e :: _ => fst e | [] => None end)
    | None => ~ In ty (types l ++ match o with RTable ty _ _ => [ty] | _ => [] end)
    end).
  { intros -> E I. destruct (find_key ty (rtables (run l))) as [t|].
    - rewrite I. split; [apply IH|]. intros f. rewrite E. apply IH.
    - rewrite I. exact IH. }
  destruct o as [ty' t force|f a b|e].
  - clear Same. cbn [step]. unfold setFunctionTable. cbn [rtables].
    destruct (Z.eqb_spec ty ty') as [<-|N].
    + assert (I : In ty (types l ++ [ty])) by (apply in_or_app; right; left; reflexivity).
      destruct (find_key ty (rtables (run l))) as [old|]; rewrite find_put, Z.eqb_refl; split; try exact I; intros f;
        rewrite entries_snoc, Z.eqb_refl.
      * destruct IH as (Hin & IH). unfold setupTable. rewrite IH. destruct (merged f).
        -- rewrite winner_snoc. reflexivity.
        -- destruct (entries ty f l) as [|e es] eqn:E; [|reflexivity].
           exfalso. clear - Hin E. induction l as [|o l IHl]; [exact Hin|].
           unfold entries, types in *. cbn [flat_map] in *. apply app_eq_nil in E. destruct E as (E1 & E2).
           rewrite in_app_iff in Hin. destruct Hin as [Hin|Hin]; [|exact (IHl Hin E2)].
           destruct o as [ty' t force| |]; try contradiction. destruct Hin as [<-|[]]. rewrite Z.eqb_refl in E1. discriminate E1.
      * rewrite (entries_none ty f l IH). cbn [app fst]. destruct (merged f); [|reflexivity].
        unfold winner, present. cbn [rev app find fst snd]. destruct (t f), force; reflexivity.
    + assert (F : find_key ty (match find_key ty' (rtables (run l)) with
         | Some old => put_key ty' (setupTable old t force) (rtables (run l)) | None => put_key ty' t (rtables (run l)) end)
         = find_key ty (rtables (run l))).
      { destruct (find_key ty' (rtables (run l))); rewrite find_put; destruct (Z.eqb_spec ty ty'); try lia; reflexivity. }
      rewrite F. destruct (find_key ty (rtables (run l))) as [t0|].
      * split; [apply in_or_app; left; apply IH|]. intros f. rewrite entries_snoc. destruct (Z.eqb_spec ty ty'); [lia|].
        rewrite app_nil_r. apply IH.
      * rewrite in_app_iff. intros [H|[H|[]]]; [exact (IH H)|lia].
  - apply Same; [apply tables_convert| |rewrite app_nil_r; reflexivity]. intros g. rewrite entries_snoc. apply app_nil_r.
  - apply Same; [reflexivity| |rewrite app_nil_r; reflexivity]. intros g. rewrite entries_snoc. apply app_nil_r.
Qed.

(** ** C79 *)
Theorem C79_unknown l ty : functionTable (run l) ty = Throw tt <-> ~ In ty (types l).
Proof.
  unfold functionTable. pose proof (history l ty) as H. destruct (find_key ty (rtables (run l))) as [t|].
  - split; [discriminate|]. intros N. exfalso. apply N, H.
  - split; [intros _; exact H|reflexivity].
Qed.
Theorem C79_merge l ty t f : functionTable (run l) ty = Ok t -> merged f = true -> t f = winner (entries ty f l).
Proof.
  unfold functionTable. intros E M. pose proof (history l ty) as H. destruct (find_key ty (rtables (run l))) as [t'|]; [|discriminate E].
  injection E as <-. destruct H as (_ & H). rewrite H, M. reflexivity.
Qed.
(** The rule in words: if a function was forced, the last one forced is in the table; otherwise
    the first one given; none only if none was given. *)
Theorem C79_rule l v : winner l = Some v <->
  (exists l1 l2, l = l1 ++ (Some v, true) :: l2 /\ forall e, In e l2 -> fst e = None \/ snd e = false) \/
  (exists l1 b l2, l = l1 ++ (Some v, b) :: l2 /\ (forall e, In e l1 -> fst e = None) /\ forall e, In e l -> fst e = None \/ snd e = false).
Proof.
  split.
  - unfold winner. destruct (find (fun e => present e && snd e) (rev l)) as [[x b]|] eqn:F.
    + cbn [fst]. intros ->. left. assert (S : exists a c, rev l = a ++ (Some v, b) :: c /\ forall e, In e a -> present e && snd e = false).
      { revert F. induction (rev l) as [|y k IH]; [discriminate|]. cbn [find]. destruct (present y && snd y) eqn:P.
        - intros E. injection E as ->. exists [], k. split; [reflexivity|]. intros e [].
        - intros E. destruct (IH E) as (a & c & -> & Ha). exists (y :: a), c. split; [reflexivity|]. intros e [<-|He]; auto. }
      destruct S as (a & c & S & Ha). apply find_some in F. destruct F as (_ & F). cbn in F. subst b.
      exists (rev c), (rev a). split.
      * rewrite <- (rev_involutive l), S, rev_app_distr. cbn [rev]. rewrite <- app_assoc. reflexivity.
      * intros e He. apply in_rev in He. specialize (Ha e He). unfold present in Ha. destruct (fst e), (snd e); auto.
    + assert (N : forall e, In e l -> fst e = None \/ snd e = false).
      { intros e He. apply in_rev in He. pose proof (find_none _ _ F e He) as P. unfold present in P. cbn beta in P.
        destruct (fst e), (snd e); auto. }
      intros E. right. revert N E. clear. intros N E.
      assert (S : exists l1 b l2, l = l1 ++ (Some v, b) :: l2 /\ forall e, In e l1 -> fst e = None).
      { clear N. induction l as [|[x b] l IH]; [discriminate|]. cbn [find] in E. unfold present at 1 in E. cbn [fst] in E.
        destruct x as [x|].
        - cbn [fst] in E. injection E as ->. exists [], b, l. split; [reflexivity|]. intros e [].
        - destruct (IH E) as (l1 & b' & l2 & -> & H). exists ((None, b) :: l1), b', l2. split; [reflexivity|].
          intros e [<-|He]; [reflexivity|auto]. }
      destruct S as (l1 & b & l2 & S & H). exists l1, b, l2. auto.
  - intros [(l1 & l2 & -> & H)|(l1 & b & l2 & E & H1 & H)].
    + unfold winner. rewrite rev_app_distr. cbn [rev]. rewrite <- app_assoc. rewrite find_app.
      destruct (find (fun e => present e && snd e) (rev l2)) as [e|] eqn:F; [|reflexivity].
      apply find_some in F. destruct F as (I & F). apply in_rev in I. unfold present in F.
      destruct (H e I) as [E'|E']; rewrite E' in F; [discriminate F|]. rewrite andb_false_r in F. discriminate F.
    + unfold winner. destruct (find (fun e => present e && snd e) (rev l)) as [e|] eqn:F.
      { apply find_some in F. destruct F as (I & F). apply in_rev in I. unfold present in F.
        destruct (H e I) as [E'|E']; rewrite E' in F; [discriminate F|]. rewrite andb_false_r in F. discriminate F. }
      rewrite E, find_app. destruct (find present l1) as [e|] eqn:G; [|reflexivity].
      apply find_some in G. destruct G as (I & G). unfold present in G. rewrite (H1 e I) in G. discriminate G.
Qed.
Print Assumptions C79_merge.
Print Assumptions C79_unknown.
Print Assumptions C79_rule.
Example C79_example : winner [(None, true); (Some 4, false); (Some 7, true); (None, true); (Some 9, false)] = Some 7.
Proof. reflexivity. Qed.

(** ** C80 *)
Definition C80_claim : Prop :=
  forall l ty t force f, In (RTable ty t force) l -> t f <> None ->
  exists t', functionTable (run l) ty = Ok t' /\ t' f <> None.
(** The registrations of the library, image_function.cpp:72 and image_function_simd.cpp:71, in
    the order SIMD first: Shift is lost. *)
Theorem C80_refuted : ~ C80_claim.
Proof.
  intros H. destruct (H [RTable 0 simd_table true; RTable 0 cpu_table false] 0 cpu_table false Shift) as (t & E & N).
  - right. left. reflexivity.
  - discriminate.
  - cbv in E. injection E as <-. apply N. reflexivity.
Qed.
Lemma in_entries l ty t force f : In (RTable ty t force) l -> In (t f, force) (entries ty f l).
Proof.
  intros I. unfold entries. apply in_flat_map. eexists. split; [exact I|]. cbn. rewrite Z.eqb_refl. left. reflexivity.
Qed.
Lemma in_types l ty t force : In (RTable ty t force) l -> In ty (types l).
Proof. intros I. unfold types. apply in_flat_map. eexists. split; [exact I|]. left. reflexivity. Qed.
Lemma winner_some l e : In e l -> fst e <> None -> winner l <> None.
Proof.
  intros I N. unfold winner. destruct (find (fun e => present e && snd e) (rev l)) as [x|] eqn:F.
  - apply find_some in F. destruct F as (_ & F). unfold present in F. destruct (fst x); discriminate.
  - destruct (find present l) as [x|] eqn:G.
    + apply find_some in G. destruct G as (_ & G). unfold present in G. destruct (fst x); discriminate.
    + pose proof (find_none _ _ G e I) as P. unfold present in P. destruct (fst e); [discriminate P|contradiction].
Qed.
(** All functions but RgbToRgba, RgbaToRgb and Shift *)
Theorem C80_partial l ty t force f : In (RTable ty t force) l -> t f <> None -> f <> RgbToRgba -> f <> RgbaToRgb -> f <> Shift ->
  exists t', functionTable (run l) ty = Ok t' /\ t' f <> None.
Proof.
  intros I N N1 N2 N3. destruct (functionTable (run l) ty) as [t'|[]| |] eqn:E.
  - exists t'. split; [reflexivity|]. rewrite (C79_merge l ty t' f E).
    + apply (winner_some _ (t f, force)); [apply in_entries, I|exact N].
    + destruct f; try reflexivity; contradiction.
  - exfalso. apply C79_unknown in E. exact (E (in_types l ty t force I)).
  - unfold functionTable in E. destruct (find_key ty (rtables (run l))); discriminate E.
  - unfold functionTable in E. destruct (find_key ty (rtables (run l))); discriminate E.
Qed.
Print Assumptions C80_refuted.
Print Assumptions C80_partial.
Example C80_hyp : In (RTable 0 cpu_table false) [RTable 0 simd_table true; RTable 0 cpu_table false] /\ cpu_table Copy <> None.
Proof. split; [right; left; reflexivity|discriminate]. Qed.

(** ** C107: the order of static initialisation *)

(** The scalar and the SIMD tables are registered by static objects of two files, in either
    order and possibly with other registrations around: the table has the SIMD function where
    there is one, else the scalar one. *)
Theorem C107_order l l1 l2 l3 t f :
  (l = l1 ++ RTable 0 cpu_table false :: l2 ++ RTable 0 simd_table true :: l3 \/
   l = l1 ++ RTable 0 simd_table true :: l2 ++ RTable 0 cpu_table false :: l3) ->
  (forall o, In o (l1 ++ l2 ++ l3) -> match o with RTable ty _ _ => ty <> 0 | _ => True end) ->
  functionTable (run l) 0 = Ok t -> f <> RgbToRgba -> f <> RgbaToRgb -> f <> Shift ->
  t f = match simd_table f with Some p => Some p | None => Some 0 end.
Proof.
  intros HL HO E N1 N2 N3. rewrite (C79_merge l 0 t f E) by (destruct f; try reflexivity; contradiction).
  assert (Z0 : forall k, (forall o, In o k -> In o (l1 ++ l2 ++ l3)) -> entries 0 f k = []).
  { intros k Hk. apply entries_none. intros I. unfold types in I. apply in_flat_map in I. destruct I as (o & Io & I).
    specialize (HO o (Hk o Io)). destruct o as [ty tb force| |]; try contradiction. destruct I as [I|[]]. contradiction. }
  assert (E1 : entries 0 f l1 = []) by (apply Z0; intros o I; rewrite !in_app_iff; auto).
  assert (E2 : entries 0 f l2 = []) by (apply Z0; intros o I; rewrite !in_app_iff; auto).
  assert (E3 : entries 0 f l3 = []) by (apply Z0; intros o I; rewrite !in_app_iff; auto).
  assert (App : forall a b, entries 0 f (a ++ b) = entries 0 f a ++ entries 0 f b) by (intros; apply flat_map_app).
  assert (Cons : forall tb force b, entries 0 f (RTable 0 tb force :: b) = (tb f, force) :: entries 0 f b) by reflexivity.
  destruct HL as [-> | ->]; rewrite App, Cons, App, Cons, E1, E2, E3; cbn [app]; destruct f; reflexivity.
Qed.
Print Assumptions C107_order.
Example C107_hyp : exists t, functionTable (run [RTable 3 opencl_table false; RTable 0 simd_table true; RConvert 5 0 3; RTable 0 cpu_table false]) 0 = Ok t /\
  t Flip = Some 1 /\ t Copy = Some 0.
Proof. eexists. split; [reflexivity|]. split; reflexivity. Qed.

(** ** C108: conversions and the list of types *)

Definition conversions (tin tout : Z) (l : list op) : list Z :=
  flat_map (fun o => match o with RConvert f a b => if (a =? tin) && (b =? tout) then [f] else [] | _ => [] end) l.

Lemma run_convert l tin tout : tin <> tout ->
  find_pair tin tout (rconvert (run l)) = last (map Some (conversions tin tout l)) None.
Proof.
  intros N. induction l as [|o l IH] using rev_ind; [reflexivity|]. rewrite run_snoc. unfold conversions. rewrite flat_map_app, map_app.
  cbn [flat_map]. fold (conversions tin tout l). destruct o as [ty t force|f a b|e].
  - cbn. rewrite app_nil_r. exact IH.
  - cbn [step]. unfold setConvertFunction. destruct (Z.eqb_spec a b) as [->|].
    + cbn [negb]. replace ((b =? tin) && (b =? tout)) with false by lia. cbn. rewrite app_nil_r. exact IH.
    + cbn [negb rconvert find_pair]. rewrite (Z.eqb_sym tin a), (Z.eqb_sym tout b).
      destruct ((a =? tin) && (b =? tout)).
      * cbn [app map]. rewrite last_last. reflexivity.
      * cbn. rewrite app_nil_r. exact IH.
  - cbn. rewrite app_nil_r. exact IH.
Qed.

(** The conversion used between two types is the one registered last; without one an exception
    is thrown. *)
Theorem C108_conversion l tin tout f : tin <> tout ->
  (convert (run l) tin tout = Ok f <-> last (map Some (conversions tin tout l)) None = Some f) /\
  (convert (run l) tin tout = Throw tt <-> conversions tin tout l = []).
Proof.
  intros N. unfold convert. rewrite (run_convert l tin tout N).
  destruct (conversions tin tout l) as [|g k] eqn:E.
  - cbn. split; split; try discriminate; auto.
  - assert (X : exists h, last (map Some (g :: k)) None = Some h).
    { clear E. revert g. induction k as [|g' k IH]; intros g; [exists g; reflexivity|]. destruct (IH g') as (h & H). exists h. exact H. }
    destruct X as (h & ->). split; split; try discriminate; intros H; injection H as ->; reflexivity.
Qed.
(** A conversion of a type to itself can neither be registered nor used. *)
Theorem C108_same l ty f r : setConvertFunction r f ty ty = Throw r /\ convert (run l) ty ty = Throw tt.
Proof.
  split; [unfold setConvertFunction; rewrite Z.eqb_refl; reflexivity|]. unfold convert.
  assert (H : find_pair ty ty (rconvert (run l)) = None); [|rewrite H; reflexivity].
  induction l as [|o l IH] using rev_ind; [reflexivity|]. rewrite run_snoc. destruct o as [ty' t force|g a b|e]; try exact IH.
  cbn [step]. unfold setConvertFunction. destruct (Z.eqb_spec a b); [exact IH|]. cbn [negb rconvert find_pair].
  destruct (Z.eqb_spec ty a), (Z.eqb_spec ty b); subst; cbn [andb]; try contradiction; exact IH.
Qed.

Lemma put_keys {V} k (v : V) l : Sorted Z.lt (map fst l) ->
  Sorted Z.lt (map fst (put_key k v l)) /\ (forall x, In x (map fst (put_key k v l)) <-> x = k \/ In x (map fst l)).
Proof.
  induction l as [|[k' v'] l IH]; intros S.
  - split; [repeat constructor|]. intros x. cbn. intuition.
  - cbn [put_key]. destruct (Z.ltb_spec k k').
    + split; [constructor; [exact S|constructor; exact H]|]. intros x. cbn. intuition.
    + cbn [map fst] in S. inversion S; subst. destruct (Z.eqb_spec k k') as [->|].
      * split; [constructor; assumption|]. intros x. cbn. intuition.
      * destruct (IH H2) as (IH1 & IH2). split.
        -- cbn [map fst]. constructor; [exact IH1|]. destruct l as [|[k2 v2] l]; cbn [put_key]; [constructor; cbn; lia|].
           cbn [map fst] in H3. inversion H3; subst. destruct (k <? k2); [constructor; cbn; lia|]. destruct (k =? k2) eqn:E2; constructor; cbn; lia.
        -- intros x. cbn [map fst In]. rewrite IH2. intuition.
Qed.
Theorem C108_types l : Sorted Z.lt (imageTypes (run l)) /\ forall ty, In ty (imageTypes (run l)) <-> In ty (types l).
Proof.
  unfold imageTypes. induction l as [|o l (IH1 & IH2)] using rev_ind; [split; [constructor|intros; reflexivity]|].
  rewrite run_snoc. destruct o as [ty t force|f a b|e].
  - cbn [step]. unfold setFunctionTable. cbn [rtables].
    assert (X : exists v, match find_key ty (rtables (run l)) with
         | Some old => put_key ty (setupTable old t force) (rtables (run l)) | None => put_key ty t (rtables (run l)) end = put_key ty v (rtables (run l))).
    { destruct (find_key ty (rtables (run l))); eexists; reflexivity. }
    destruct X as (v & ->). destruct (put_keys ty v (rtables (run l)) IH1) as (S & I). split; [exact S|].
    intros x. rewrite I, IH2, types_snoc, in_app_iff. cbn [In]. intuition.
  - rewrite tables_convert. split; [exact IH1|]. intros ty. rewrite IH2, types_snoc, app_nil_r. reflexivity.
  - split; [exact IH1|]. intros ty. cbn [step enable rtables]. rewrite IH2, types_snoc, app_nil_r. reflexivity.
Qed.
Print Assumptions C108_conversion.
Print Assumptions C108_same.
Print Assumptions C108_types.
Example C108_example : conversions 0 3 [RConvert 5 0 3; RConvert 6 3 0; RConvert 7 0 3] = [5; 7] /\
  imageTypes (run [RTable 3 opencl_table false; RTable 0 simd_table true; RTable 3 cpu_table false]) = [0; 3].
Proof. split; reflexivity. Qed.

(** ** C81: dispatch *)

Section DISPATCH.
Context {V : Type} (blank : Z -> V) (conv : Z -> V -> V -> V) (call : fname -> Z -> list V -> list V * bool) (grow : nat -> nat).

(** The table of the type of the images lacks the function and substitution is on: the function
    called gets images of the type it was registered for. *)
Definition C81_claim : Prop :=
  forall r f args ord o ty0 t ty tys,
  shape f = Some (map amut args) -> Permutation ord (seq 0 (length args)) ->
  Forall (fun a => aty a = ty0) args -> functionTable r ty0 = Ok t -> t f = None -> renabled r = true ->
  facade blank conv call grow r f args ord = Ok o -> ocall o = Some (ty, tys) -> Forall (fun x => x = ty) tys.

(** *** The functions that use the image manager *)

Definition allty (ty : Z) (m : @manager V) : Prop :=
  Forall (fun c => fst c = ty) (vels (minp m)) /\ Forall (fun c => fst c = ty) (vels (mout m)).
Definition refok (ty : Z) (args : list (arg V)) (x : ref) : Prop :=
  match x with Own i => exists a, nth_error args i = Some a /\ aty a = ty | _ => True end.

Lemma clone_type r ty a c : clone blank conv r ty a = Ok c -> fst c = ty.
Proof.
  unfold clone, image_of. destruct (existsb (Z.eqb ty) (rimages r)); cbn [bind]; [|discriminate].
  destruct (convert r (aty a) ty); cbn [bind]; try discriminate. intros E. injection E as <-. reflexivity.
Qed.
Lemma push_els (v : @vec V) x : vels (push grow v x) = vels v ++ [x].
Proof. unfold push. destruct (Nat.ltb _ _); reflexivity. Qed.
Lemma wrap_type r ty m i a args m' x : nth_error args i = Some a -> allty ty m ->
  wrap blank conv grow r ty m i a = Ok (m', x) -> allty ty m' /\ refok ty args x.
Proof.
  intros N (A1 & A2). unfold wrap. destruct (Z.eqb_spec (aty a) ty) as [E|].
  - intros H. injection H as <- <-. split; [split; assumption|]. exists a. auto.
  - destruct (amut a), (clone blank conv r ty a) as [c| | |] eqn:C; try discriminate; intros H; injection H as <- <-;
      (split; [|exact I]); apply clone_type in C; split; cbn [minp mout]; rewrite ?push_els; try assumption;
      apply Forall_app; split; try assumption; repeat constructor; exact C.
Qed.
Lemma wrap_all_type r ty args : forall ord m m' refs, allty ty m ->
  wrap_all blank conv grow r ty args ord m = Ok (m', refs) ->
  allty ty m' /\ forall i x, lookup_ref i refs = Some x -> refok ty args x.
Proof.
  induction ord as [|i ord IH]; intros m m' refs A; cbn [wrap_all].
  - intros H. injection H as <- <-. split; [exact A|]. discriminate.
  - destruct (nth_error args i) as [a|] eqn:N; [|discriminate].
    destruct (wrap blank conv grow r ty m i a) as [[m1 x]| | |] eqn:W; cbn [bind fst snd]; try discriminate.
    destruct (wrap_type r ty m i a args m1 x N A W) as (A1 & R1).
    destruct (wrap_all blank conv grow r ty args ord m1) as [[m2 l]| | |] eqn:W2; cbn [bind fst snd]; try discriminate.
    intros H. injection H as <- <-. destruct (IH m1 m2 l A1 W2) as (A2 & R2). split; [exact A2|].
    intros j y. cbn [lookup_ref]. destruct (Nat.eqb j i); [|apply R2]. intros E. injection E as <-. exact R1.
Qed.
Lemma deref_type ty args m x c : allty ty m -> refok ty args x -> deref args m x = Ok c -> fst c = ty.
Proof.
  intros (A1 & A2) R. destruct x as [i|k g|k g]; cbn [deref refok] in *.
  - destruct R as (a & -> & E). intros H. injection H as <-. exact E.
  - destruct (Nat.eqb _ _); [|discriminate]. destruct (nth_error _ _) eqn:N; [|discriminate]. intros H. injection H as <-.
    apply nth_error_In in N. rewrite Forall_forall in A1. exact (A1 _ N).
  - destruct (Nat.eqb _ _); [|discriminate]. destruct (nth_error _ _) eqn:N; [|discriminate]. intros H. injection H as <-.
    apply nth_error_In in N. rewrite Forall_forall in A2. exact (A2 _ N).
Qed.
Lemma deref_all_type ty args m refs : allty ty m -> (forall i x, lookup_ref i refs = Some x -> refok ty args x) ->
  forall n i vs, deref_all args m refs n i = Ok vs -> Forall (fun x => x = ty) (map fst vs).
Proof.
  intros A R. induction n as [|n IH]; intros i vs; cbn [deref_all].
  - intros H. injection H as <-. constructor.
  - destruct (lookup_ref i refs) as [x|] eqn:L; [|discriminate].
    destruct (deref args m x) as [c| | |] eqn:D; cbn [bind]; try discriminate.
    destruct (deref_all args m refs n (S i)) as [l| | |] eqn:D2; cbn [bind]; try discriminate.
    intros H. injection H as <-. cbn [map]. constructor; [exact (deref_type ty args m x c A (R i x L) D)|exact (IH _ _ D2)].
Qed.

(** The four functions that use the manager never hand over an image of another type. *)
Theorem C81_managed_partial r f args ord o ty tys : managed f = true ->
  facade blank conv call grow r f args ord = Ok o -> ocall o = Some (ty, tys) -> Forall (fun x => x = ty) tys.
Proof.
  intros M. unfold facade. destruct args as [|a0 args]; [discriminate|]. set (l := a0 :: args) in *.
  destruct (initialize r (aty a0) f) as [[p ty1]| | |]; try (intros H; injection H as <-; discriminate).
  rewrite M. destruct (wrap_all blank conv grow r ty1 l ord mempty) as [[m refs]|m| |] eqn:W; try discriminate.
  - assert (A0 : allty ty1 (@mempty V)) by (split; constructor).
    destruct (wrap_all_type r ty1 l ord _ _ _ A0 W) as (A & R).
    destruct (deref_all l m refs (length l) 0) as [vs| | |] eqn:D; cbn [bind]; try discriminate.
    pose proof (deref_all_type ty1 l m refs A R _ _ _ D) as T.
    destruct (call f p (map snd vs)) as [w th]. destruct (put_all l m refs 0 w) as [l' m'].
    unfold finish. destruct (restore conv r l' m' (mown m') 0); cbn [bind]; try discriminate.
    intros H. injection H as <-. cbn [ocall]. intros H. injection H as <- <-. exact T.
  - unfold finish. destruct (restore conv r l m (mown m) 0); cbn [bind]; try discriminate.
    intros H. injection H as <-. discriminate.
Qed.

(** What the function is given for an image, and what an output image holds afterwards *)
Definition inside (r : registry) (ty : Z) (x : arg V) (v : V) : Prop :=
  (aty x = ty /\ v = aval x) \/
  (aty x <> ty /\ exists c, image_of r ty = Ok ty /\ convert r (aty x) ty = Ok c /\ v = conv c (aval x) (blank ty)).
Definition back (r : registry) (ty : Z) (x : arg V) (w v : V) : Prop :=
  (aty x = ty /\ v = w) \/ (aty x <> ty /\ exists c, convert r ty (aty x) = Ok c /\ v = conv c w (aval x)).

Ltac run_facade :=
  repeat match goal with
  | H : aty ?x = ?t |- context [aty ?x =? ?t] => rewrite (proj2 (Z.eqb_eq (aty x) t) H)
  | H : aty ?x <> ?t |- context [aty ?x =? ?t] => rewrite (proj2 (Z.eqb_neq (aty x) t) H)
  | H : amut ?x = _ |- context [amut ?x] => rewrite H
  | H : image_of _ _ = Ok _ |- context [image_of _ _] => rewrite H
  | H : convert _ ?a ?b = Ok _ |- context [convert _ ?a ?b] => rewrite H
  | H : call _ _ _ = _ |- context [call _ _ _] => rewrite H
  | _ => progress cbn [wrap_all nth_error wrap clone bind fst snd minp mout mown mempty push vels vcap vgen length Nat.ltb Nat.leb app
           deref_all lookup_ref Nat.eqb deref map put_all put_ref set_nth restore aty amut aval finish]
  end.

(** One input and one output: the input is converted, the output converted there and back;
    whatever the order of evaluation. *)
Theorem C81_two_partial r f a b ord p ty va vb wa wb th vb' :
  f = ConvertToGrayScale \/ f = Threshold -> amut a = false -> amut b = true ->
  ord = [0%nat; 1%nat] \/ ord = [1%nat; 0%nat] ->
  initialize r (aty a) f = Ok (p, ty) -> inside r ty a va -> inside r ty b vb ->
  call f p [va; vb] = ([wa; wb], th) -> back r ty b wb vb' ->
  facade blank conv call grow r f [a; b] ord = Ok (mkOut [a; mkArg (aty b) true vb'] th (Some (ty, [ty; ty]))).
Proof.
  intros Hf Ma Mb Ho Hi Ia Ib Hc Hb. unfold facade. rewrite Hi.
  replace (managed f) with true by (destruct Hf as [-> | ->]; reflexivity). unfold wrap_all, wrap, clone, push, finish.
  destruct Ia as [(Ta & ->)|(Ta & ca & Fa & Ca & ->)]; destruct Ib as [(Tb & ->)|(Tb & cb & Fb & Cb & ->)];
    destruct Hb as [(Tb' & ->)|(Tb' & cb' & Cb' & ->)]; try contradiction; destruct Ho as [-> | ->];
    run_facade; rewrite ?Ta, ?Tb; reflexivity.
Qed.

Theorem C81_one_partial r a p ty va w th : amut a = false -> initialize r (aty a) Histogram = Ok (p, ty) -> inside r ty a va ->
  call Histogram p [va] = ([w], th) ->
  facade blank conv call grow r Histogram [a] [0%nat] = Ok (mkOut [a] th (Some (ty, [ty]))).
Proof.
  intros Ma Hi Ia Hc. unfold facade. rewrite Hi. cbn [managed]. unfold wrap_all, wrap, clone, push, finish.
  destruct Ia as [(Ta & ->)|(Ta & ca & Fa & Ca & ->)]; run_facade; rewrite ?Ta; reflexivity.
Qed.

(** Without substitution, and all images of one type, every function of the facade is the
    function of that type, called with the images themselves. *)
Theorem C81_same_type_partial r f args ord t p : managed f = false -> args <> [] ->
  (forall x y, In x args -> In y args -> aty x = aty y) -> (forall a, In a args -> functionTable r (aty a) = Ok t) -> t f = Some p ->
  exists o, facade blank conv call grow r f args ord = Ok o /\ othrown o = snd (call f p (map aval args)) /\
    exists ty tys, ocall o = Some (ty, tys) /\ Forall (fun x => x = ty) tys /\ length tys = length args.
Proof.
  intros M Ne Hs Ht Hp. destruct args as [|a0 args]; [contradiction|]. unfold facade, initialize.
  rewrite (Ht a0) by (left; reflexivity). cbn [bind]. rewrite Hp, M.
  destruct (call f p (map aval (a0 :: args))) as [w th]. destruct (put_all _ _ _ 0 w) as [l' m'].
  eexists. split; [reflexivity|]. split; [reflexivity|]. cbn [ocall]. exists (aty a0), (map aty (a0 :: args)).
  split; [reflexivity|]. split; [|rewrite map_length; reflexivity]. rewrite Forall_forall. intros x Hx.
  apply in_map_iff in Hx. destruct Hx as (y & <- & Hy). apply Hs; [exact Hy|left; reflexivity].
Qed.

(** *** AbsoluteDifference *)

(** The images of the other type are converted as for the functions above. *)
Definition C110_claim : Prop :=
  forall r a b c ord p ty va vb vc wa wb wc th vc',
  amut a = false -> amut b = false -> amut c = true -> Permutation ord [0%nat; 1%nat; 2%nat] ->
  initialize r (aty a) AbsoluteDifference = Ok (p, ty) -> inside r ty a va -> inside r ty b vb -> inside r ty c vc ->
  call AbsoluteDifference p [va; vb; vc] = ([wa; wb; wc], th) -> back r ty c wc vc' ->
  facade blank conv call grow r AbsoluteDifference [a; b; c] ord = Ok (mkOut [a; b; mkArg (aty c) true vc'] th (Some (ty, [ty; ty; ty]))).

Lemma orders (ord : list nat) : Permutation ord [0%nat; 1%nat; 2%nat] ->
  In ord [[0; 1; 2]; [0; 2; 1]; [1; 0; 2]; [1; 2; 0]; [2; 0; 1]; [2; 1; 0]]%nat.
Proof.
  intros P. pose proof (Permutation_length P) as L.
  destruct ord as [|i [|j [|k [|]]]]; try discriminate L. clear L.
  assert (Hi : In i [0; 1; 2]%nat) by (apply (Permutation_in _ P); left; reflexivity).
  assert (Hj : In j [0; 1; 2]%nat) by (apply (Permutation_in _ P); right; left; reflexivity).
  assert (Hk : In k [0; 1; 2]%nat) by (apply (Permutation_in _ P); right; right; left; reflexivity).
  assert (D : NoDup [i; j; k]).
  { apply (Permutation_NoDup (Permutation_sym P)). repeat constructor; cbn; intuition discriminate. }
  inversion D as [|x l N1 D1]; subst. inversion D1 as [|x l N2 D2]; subst. cbn in N1, N2.
  cbn in Hi, Hj, Hk. destruct Hi as [<-|[<-|[<-|[]]]]; destruct Hj as [<-|[<-|[<-|[]]]]; destruct Hk as [<-|[<-|[<-|[]]]];
    try (exfalso; tauto); cbn; tauto.
Qed.

(** At most one of the two inputs has another type, or the vector starts with room for two. *)
Theorem C110_partial r a b c ord p ty va vb vc wa wb wc th vc' :
  amut a = false -> amut b = false -> amut c = true -> Permutation ord [0%nat; 1%nat; 2%nat] ->
  initialize r (aty a) AbsoluteDifference = Ok (p, ty) -> inside r ty a va -> inside r ty b vb -> inside r ty c vc ->
  call AbsoluteDifference p [va; vb; vc] = ([wa; wb; wc], th) -> back r ty c wc vc' ->
  aty a = ty \/ aty b = ty \/ grow 0 = 2%nat ->
  facade blank conv call grow r AbsoluteDifference [a; b; c] ord = Ok (mkOut [a; b; mkArg (aty c) true vc'] th (Some (ty, [ty; ty; ty]))).
Proof.
  intros Ma Mb Mc P Hi Ia Ib Ic Hc Hb Hg. apply orders in P. unfold facade. rewrite Hi. cbn [managed]. unfold wrap_all, wrap, clone, push, finish.
  destruct Ia as [(Ta & ->)|(Ta & ca & Fa & Ca & ->)]; destruct Ib as [(Tb & ->)|(Tb & cb & Fb & Cb & ->)];
    destruct Ic as [(Tc & ->)|(Tc & cc & Fc & Cc & ->)]; destruct Hb as [(Tc' & ->)|(Tc' & cc' & Cc' & ->)]; try contradiction;
    cbn [In] in P; (destruct P as [<-|[<-|[<-|[<-|[<-|[<-|[]]]]]]]);
    try (assert (G : grow 0 = 2%nat) by (destruct Hg as [?|[?|?]]; [contradiction|contradiction|assumption]));
    run_facade; try (rewrite G; run_facade); rewrite ?Ta, ?Tb, ?Tc; reflexivity.
Qed.
End DISPATCH.

(** *** Witnesses *)

(** The registry of a program built with OpenCL: image_function.cpp:72,
    image_function_simd.cpp:71, opencl/image_function_opencl.cpp:63-65; then
    enableIntertypeConversion( true ) *)
Definition both : registry :=
  run [RTable 0 cpu_table false; RTable 0 simd_table true; RTable 3 opencl_table false; RConvert 10 0 3; RConvert 11 3 0; REnable true].
(** contents are integers; a conversion copies them; a function adds its number to the first
    one and stores the result in the last one; vectors double their capacity, as in libstdc++ *)
Definition wblank (ty : Z) : Z := 0.
Definition wconv (f vin vout : Z) : Z := vin.
Definition wcall (f : fname) (p : Z) (l : list Z) : list Z * bool :=
  match l with [a; b] => ([a; a + p], false) | [a; b; c] => ([a; b; a - b], false) | _ => (l, false) end.
Definition wgrow (n : nat) : nat := match n with O => 1%nat | _ => (2 * n)%nat end.

Definition dev (v : Z) (out : bool) : arg Z := mkArg 3 out v.

(** Flip of a device image: there is no such function in the table of the device; the scalar
    one is called with the device images. *)
Lemma flip_call : facade wblank wconv wcall wgrow both Flip [dev 5 false; dev 6 true] [0%nat; 1%nat]
  = Ok (mkOut [dev 5 false; dev 6 true] false (Some (0, [3; 3]))).
Proof. reflexivity. Qed.
Theorem C81_refuted : ~ C81_claim wblank wconv wcall wgrow.
Proof.
  intros H.
  assert (F : Forall (fun x => x = 0) [3; 3]).
  { eapply (H both Flip [dev 5 false; dev 6 true] [0%nat; 1%nat] _ 3 opencl_table 0 [3; 3]).
    - reflexivity.
    - apply Permutation_refl.
    - repeat constructor.
    - reflexivity.
    - reflexivity.
    - reflexivity.
    - exact flip_call.
    - reflexivity. }
  inversion F. discriminate.
Qed.

(** AbsoluteDifference with an output of the device and a table that only the scalar type has:
    two clones of the inputs, the first one is gone when the function is called. *)
Definition device_less : registry :=
  run [RTable 0 cpu_table false; RTable 3 (fun _ => None) false; RConvert 10 0 3; RConvert 11 3 0; REnable true].
Theorem C110_refuted : ~ C110_claim wblank wconv wcall wgrow.
Proof.
  intros H.
  assert (I : forall v out, inside wblank wconv device_less 0 (dev v out) v).
  { intros v out. right. split; [discriminate|]. exists 11. repeat split; reflexivity. }
  specialize (H device_less (dev 9 false) (dev 5 false) (dev 0 true) [0%nat; 1%nat; 2%nat] 0 0 9 5 0 9 5 4 false 4
    eq_refl eq_refl eq_refl (Permutation_refl _) eq_refl (I 9 false) (I 5 false) (I 0 true) eq_refl).
  discriminate H. right. split; [discriminate|]. exists 10. split; reflexivity.
Qed.
Example C110_hyp : inside wblank wconv device_less 0 (dev 9 false) 9 /\ inside wblank wconv device_less 0 (mkArg 0 false 5) 5 /\
  facade wblank wconv wcall wgrow device_less AbsoluteDifference [dev 9 false; mkArg 0 false 5; dev 0 true] [2%nat; 0%nat; 1%nat]
  = Ok (mkOut [dev 9 false; mkArg 0 false 5; dev 4 true] false (Some (0, [0; 0; 0]))).
Proof.
  split; [right; split; [discriminate|]; exists 11; repeat split; reflexivity|]. split; [left; split; reflexivity|].
  reflexivity.
Qed.
Example C81_hyp : inside wblank wconv device_less 0 (dev 9 false) 9 /\ initialize device_less 3 Threshold = Ok (0, 0) /\
  facade wblank wconv wcall wgrow device_less Threshold [dev 9 false; dev 1 true] [1%nat; 0%nat]
  = Ok (mkOut [dev 9 false; dev 9 true] false (Some (0, [0; 0]))).
Proof.
  split; [right; split; [discriminate|]; exists 11; repeat split; reflexivity|]. split; reflexivity.
Qed.

(** ** C109: missing conversions *)

(** A call with images of any types returns or throws. *)
Definition C109_claim : Prop :=
  forall r a b ord, amut a = false -> amut b = true -> Permutation ord [0%nat; 1%nat] ->
  exists o, facade wblank wconv wcall wgrow r Threshold [a; b] ord = Ok o.
(** The output has a type that cannot be converted: while the exception is handled, the
    destructor of the manager reads the clone that was not made. *)
Theorem C109_refuted : ~ C109_claim.
Proof.
  intros H. destruct (H both (mkArg 0 false 9) (mkArg 7 true 1) [0%nat; 1%nat] eq_refl eq_refl (Permutation_refl _)) as (o & E).
  discriminate E.
Qed.
(** There is no conversion back: the destructor throws, which ends the program. *)
Theorem C109_back_refuted : ~ C109_claim.
Proof.
  intros H. destruct (H (run [RTable 0 cpu_table false; RConvert 12 7 0]) (mkArg 0 false 9) (mkArg 7 true 1) [0%nat; 1%nat] eq_refl eq_refl (Permutation_refl _)) as (o & E).
  discriminate E.
Qed.
(** A missing conversion of an input is reported by an exception, and nothing has changed. *)
Theorem C109_input_partial {V} blank conv call grow r f (a b : arg V) ord p ty :
  managed f = true -> amut a = false -> Permutation ord [0%nat; 1%nat] ->
  initialize r (aty a) f = Ok (p, ty) -> aty b = ty -> aty a <> ty ->
  (forall c, convert r (aty a) ty <> Ok c) \/ (image_of r ty <> Ok ty) ->
  facade blank conv call grow r f [a; b] ord = Ok (mkOut [a; b] true None).
Proof.
  intros M Ma P Hi Tb Ta Hc.
  assert (N : forall X : Z * V -> res (@manager V) (@manager V * ref), match clone blank conv r ty a with Ok c => X c | _ => Throw (@mempty V) end = Throw mempty).
  { intros X. unfold clone, image_of in *. destruct (existsb (Z.eqb ty) (rimages r)); cbn [bind]; [|reflexivity].
    destruct (convert r (aty a) ty) eqn:C; cbn [bind]; try reflexivity. destruct Hc as [Hc|Hc]; [|contradiction].
    exfalso. exact (Hc a0 eq_refl). }
  assert (O : ord = [0%nat; 1%nat] \/ ord = [1%nat; 0%nat]).
  { apply Permutation_sym in P. apply Permutation_length_2_inv in P. exact P. }
  unfold facade. rewrite Hi, M.
  assert (Wa : wrap blank conv grow r ty mempty 0 a = Throw mempty).
  { unfold wrap. rewrite (proj2 (Z.eqb_neq _ _) Ta), Ma. apply N. }
  assert (Wb : wrap blank conv grow r ty mempty 1 b = Ok (mempty, Own 1)).
  { unfold wrap. rewrite (proj2 (Z.eqb_eq _ _) Tb). reflexivity. }
  destruct O as [-> | ->]; cbn [wrap_all nth_error]; rewrite ?Wb, ?Wa; cbn [bind fst snd]; rewrite ?Wa; cbn [bind]; reflexivity.
Qed.

(** ** C111: which function is substituted *)

(** A function of the type itself is preferred; otherwise, if enabled, the type with the lowest
    number that has one; otherwise an exception is thrown. *)
Theorem C111_own r ty f t p : functionTable r ty = Ok t -> t f = Some p -> initialize r ty f = Ok (p, ty).
Proof. intros E H. unfold initialize. rewrite E. cbn [bind]. rewrite H. reflexivity. Qed.
Theorem C111_substitute l ty f t : functionTable (run l) ty = Ok t -> t f = None -> renabled (run l) = true ->
  (forall p ty', initialize (run l) ty f = Ok (p, ty') <->
     (exists t', functionTable (run l) ty' = Ok t' /\ t' f = Some p) /\
     forall ty2 t2, ty2 < ty' -> functionTable (run l) ty2 = Ok t2 -> t2 f = None) /\
  (initialize (run l) ty f = Throw tt <-> forall ty2 t2, functionTable (run l) ty2 = Ok t2 -> t2 f = None).
Proof.
  intros E N En. unfold initialize. rewrite E. cbn [bind]. rewrite N, En.
  pose proof (proj1 (C108_types l)) as S. unfold imageTypes in S. unfold functionTable.
  assert (S' : StronglySorted Z.lt (map fst (rtables (run l)))) by (apply Sorted_StronglySorted; [intros x y z; apply Z.lt_trans|exact S]).
  clear S E N En t. revert S'. induction (rtables (run l)) as [|[k t] m IH]; intros S; cbn [substitute find_key map fst] in *.
  - split; [|split; auto; intros; discriminate]. intros p ty'. split; [discriminate|]. intros ((t' & H & _) & _). discriminate H.
  - inversion S as [|x y S1 F]; subst. rewrite Forall_forall in F. specialize (IH S1).
    assert (Big : forall j t', find_key j m = Some t' -> k < j).
    { intros j t' H. apply F. clear - H. induction m as [|[k2 t2] m IHm]; [discriminate|]. cbn [find_key] in H. cbn [map fst In].
      destruct (Z.eqb_spec j k2); [left; auto|right; apply IHm, H]. }
    destruct (t f) as [q|] eqn:Q.
    + split.
      * intros p ty'. split.
        -- intros H. injection H as <- <-. split.
           ++ exists t. rewrite Z.eqb_refl. auto.
           ++ intros ty2 t2 L H. destruct (Z.eqb_spec ty2 k); [lia|]. destruct (find_key ty2 m) as [t3|] eqn:K; [|discriminate H].
              apply Big in K. lia.
        -- intros ((t' & H & P) & Lo). destruct (Z.eqb_spec ty' k) as [->|].
           ++ injection H as <-. rewrite Q in P. injection P as <-. reflexivity.
           ++ destruct (find_key ty' m) as [t3|] eqn:K; [|discriminate H]. apply Big in K.
              specialize (Lo k t K). rewrite Z.eqb_refl in Lo. rewrite Lo in Q by reflexivity. discriminate Q.
      * split; [discriminate|]. intros H. specialize (H k t). rewrite Z.eqb_refl in H. rewrite H in Q by reflexivity. discriminate Q.
    + destruct IH as (IH1 & IH2). split.
      * intros p ty'. rewrite IH1. split; intros ((t' & H & P) & Lo).
        -- split.
           ++ exists t'. destruct (Z.eqb_spec ty' k) as [->|]; [|auto]. destruct (find_key k m) eqn:K; [|discriminate H]. apply Big in K. lia.
           ++ intros ty2 t2 L K. destruct (Z.eqb_spec ty2 k); [injection K as <-; exact Q|]. exact (Lo ty2 t2 L K).
        -- destruct (Z.eqb_spec ty' k) as [->|].
           ++ injection H as <-. rewrite Q in P. discriminate P.
           ++ split; [exists t'; auto|]. intros ty2 t2 L K. apply (Lo ty2 t2 L). destruct (Z.eqb_spec ty2 k) as [->|]; [|exact K].
              destruct (find_key k m) eqn:K2; [|discriminate K]. apply Big in K2. lia.
      * rewrite IH2. split; intros H ty2 t2 K.
        -- destruct (Z.eqb_spec ty2 k); [injection K as <-; exact Q|]. exact (H ty2 t2 K).
        -- apply (H ty2 t2). destruct (Z.eqb_spec ty2 k) as [->|]; [|exact K].
           destruct (find_key k m) eqn:K2; [|discriminate K]. apply Big in K2. lia.
Qed.
Example C111_hyp : functionTable both 3 = Ok opencl_table /\ opencl_table Flip = None /\ renabled both = true /\ initialize both 3 Flip = Ok (1, 0).
Proof. repeat split; reflexivity. Qed.

Print Assumptions C81_managed_partial.
Print Assumptions C81_two_partial.
Print Assumptions C81_one_partial.
Print Assumptions C81_same_type_partial.
Print Assumptions C110_partial.
Print Assumptions C81_refuted.
Print Assumptions C110_refuted.
Print Assumptions C109_refuted.
Print Assumptions C109_back_refuted.
Print Assumptions C109_input_partial.
Print Assumptions C111_own.
Print Assumptions C111_substitute.
