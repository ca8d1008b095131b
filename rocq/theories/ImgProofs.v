(** Proofs about the pixelwise image functions. *)
From Coq Require Import ZArith List Bool Lia.
From Verif Require Import Base Image Spec BaseProofs ImgFun ImgLemmas.
Import ListNotations.
Open Scope Z_scope.

Ltac Zify.zify_post_hook ::= Z.div_mod_to_equations.

(** ** Two inputs *)

Lemma pixelwise2_writes opt f m in1 x1 y1 in2 x2 y2 out xo yo w h :
  wf m in1 -> wf m in2 -> wf m out ->
  icc in1 = icc out -> icc in2 = icc out ->
  roi_in in1 x1 y1 w h -> roi_in in2 x2 y2 w h -> roi_in out xo yo w h ->
  no_hazard out xo yo in1 x1 y1 w h -> no_hazard out xo yo in2 x2 y2 w h ->
  ((forall im, In im [in1; in2; out] -> exists im', In im' (opt in1 in2 out) /\ irs im = irs im')
   \/ OptimiseRoi (w * icc out) h (opt in1 in2 out) = (w * icc out, h)) ->
  writes (pixelwise2 opt f m in1 x1 y1 in2 x2 y2 out xo yo w h) m out xo yo w h
    (fun i j c => f (pixel m in1 (x1 + i) (y1 + j) c) (pixel m in2 (x2 + i) (y2 + j) c)).
Proof.
  intros W1 W2 Wo C1 C2 R1 R2 Ro Z1 Z2 Hopt.
  unfold pixelwise2, valid_roi3, valid_roi2, common_cc3.
  rewrite (valid_roi_ok m) by assumption. rewrite (valid_roi_ok m) by assumption.
  rewrite (valid_roi_ok m) by assumption.
  rewrite C1, C2, !Z.eqb_refl. cbn [andb].
  rewrite (row_ptr_origin m in1 x1 y1 w h) by (auto; pose proof (wf_cc_pos _ _ W1); lia).
  rewrite (row_ptr_origin m in2 x2 y2 w h) by (auto; pose proof (wf_cc_pos _ _ W2); lia).
  rewrite (row_ptr_origin m out xo yo w h) by (auto; pose proof (wf_cc_pos _ _ Wo); lia).
  pose proof (wf_cc_pos _ _ Wo) as Hcc.
  assert (Hw0 : 0 < w) by apply Ro. assert (Hh0 : 0 < h) by apply Ro.
  rewrite (u32_width m out xo w) by (auto; first [apply Ro|lia]).
  set (p := origin out xo yo (icc out)).
  set (L := [(p, irs out, 1); (origin in1 x1 y1 (icc out), irs in1, 1);
             (origin in2 x2 y2 (icc out), irs in2, 1)]).
  set (body := fun (cs : list ptr) (m : mem) =>
        bind (load m (c1 cs)) (fun a => bind (load m (c2 cs)) (fun b => store m (c0 cs) (f a b)))
        : res mem mem).
  pose proof (roi_rows_small m out xo yo w h Wo Ro) as Hsm.
  pose proof (wf_rs_pos _ _ Wo) as Hrs.
  match goal with |- writes ?r _ _ _ _ _ _ _ =>
    assert (Hrun : r = iterM (Z.to_nat h) 0 (fun j => iterM (Z.to_nat (w * icc out)) 0
                         (fun i => body (cells L j i))) m)
  end.
  { destruct Hopt as [Hopt|Hopt].
    - destruct (OptimiseRoi (w * icc out) h (opt in1 in2 out)) as [w' h'] eqn:Ho.
      rewrite <- (Z.mul_1_r (w * icc out)) in Ho.
      apply (@walk2_opt mem mem (w * icc out) 1 h (opt in1 in2 out) w' h' p
               [origin in1 x1 y1 (icc out); origin in2 x2 y2 (icc out)] (irs out) [irs in1; irs in2] body m);
        auto; try nia.
      intros x Hx. simpl in Hx.
      destruct Hx as [<-|[<-|[<-|[]]]];
        [destruct (Hopt out) as (im & A & B)|destruct (Hopt in1) as (im & A & B)
        |destruct (Hopt in2) as (im & A & B)]; simpl; eauto.
    - rewrite Hopt.
      apply (@walk2_plain mem mem (w * icc out) h (w * icc out) p
               [origin in1 x1 y1 (icc out); origin in2 x2 y2 (icc out)] (irs out) [irs in1; irs in2]
               1 [1; 1] body m); auto; nia. }
  rewrite Hrun. clear Hrun.
  set (s1 := fun j i => padd (origin in1 x1 y1 (icc in1)) (j * irs in1 + i)).
  set (s2 := fun j i => padd (origin in2 x2 y2 (icc in2)) (j * irs in2 + i)).
  set (d := fun j i => padd p (j * irs out + i)).
  assert (Hv : forall i j c, f (pixel m in1 (x1 + i) (y1 + j) c) (pixel m in2 (x2 + i) (y2 + j) c)
     = f (get m (s1 j (i * icc out + c))) (get m (s2 j (i * icc out + c)))).
  { intros. unfold pixel, s1, s2. rewrite !px_origin. rewrite C1, C2. reflexivity. }
  assert (Hstep : forall j i t, body (cells L j i) t
     = sstep [s1 j i; s2 j i] (d j i) (fun vs => Ok (f (nth 0 vs 0) (nth 1 vs 0))) t).
  { intros j i t. unfold body, sstep, c0, c1, c2, L, cells. cbn [map nth fst snd loads].
    unfold s1, s2, d. rewrite C1, C2, !Z.mul_1_r, !bind_assoc.
    apply bind_ext. intros a _. rewrite !bind_assoc. apply bind_ext. intros b _. reflexivity. }
  destruct (@scatter2_1 mem (fun j i => [s1 j i; s2 j i]) d
              (fun j i vs => Ok (f (nth 0 vs 0) (nth 1 vs 0)))
              (fun j i => f (get m (s1 j i)) (get m (s2 j i)))
              (Z.to_nat h) (Z.to_nat (w * icc out)) m) as (m' & He & Hl & Hf & Hval).
  - intros j i (Hj & Hi) q [<-|[<-|[]]].
    + apply (cell_inb m in1 x1 y1 w h); auto; nia.
    + apply (cell_inb m in2 x2 y2 w h); auto; nia.
  - intros j i (Hj & Hi). apply (cell_inb m out xo yo w h); auto; nia.
  - intros j i _. reflexivity.
  - intros j i j' i' (Hj & Hi) (Hj' & Hi') Heq.
    apply (cell_inj m out xo yo w h i j i' j'); auto; nia.
  - intros j i j' i' (Hj & Hi) (Hj' & Hi') [Heq|[Heq|[]]]; symmetry in Heq.
    + apply (hazard_samples out xo yo in1 x1 y1 w h); auto; try nia.
    + apply (hazard_samples out xo yo in2 x2 y2 w h); auto; try nia.
  - destruct (@writes_of_samples mem
      (iterM (Z.to_nat h) 0 (fun j => iterM (Z.to_nat (w * icc out)) 0 (fun i => body (cells L j i))) m)
      m out xo yo w h (fun j i => f (get m (s1 j i)) (get m (s2 j i))) Wo) as (m'' & E'' & V'' & F'').
    + exists m'. split; [|split; [exact Hl|split]].
      * rewrite <- He. apply iterM_ext. intros j s _. apply iterM_ext. intros i t _. apply Hstep.
      * intros q Hq. apply Hf. intros j i (Hj & Hi). apply Hq; nia.
      * intros j i Hj Hi. apply Hval. nia.
    + exists m''. split; [exact E''|]. split; [|exact F''].
      intros i j c Hin. rewrite V'' by assumption. symmetry. apply Hv.
Qed.

(** ** One input *)

(** The common core: a sample-wise one-input program on a region. *)
Lemma samples1_writes (f : Z -> res mem Z) (val : Z -> Z -> Z -> Z) m inp xi yi out xo yo w h :
  wf m inp -> wf m out -> icc inp = icc out ->
  roi_in inp xi yi w h -> roi_in out xo yo w h ->
  no_hazard out xo yo inp xi yi w h ->
  (forall i j c, inside w h (icc out) i j c ->
     f (pixel m inp (xi + i) (yi + j) c) = Ok (val i j c)) ->
  writes (iterM (Z.to_nat h) 0 (fun j => iterM (Z.to_nat (w * icc out)) 0 (fun i =>
            sstep [padd (origin inp xi yi (icc inp)) (j * irs inp + i)]
                  (padd (origin out xo yo (icc out)) (j * irs out + i))
                  (fun vs => f (nth 0 vs 0)))) m) m out xo yo w h val.
Proof.
  intros W1 Wo C1 R1 Ro Z1 Hf.
  pose proof (wf_cc_pos _ _ Wo) as Hcc.
  assert (Hw0 : 0 < w) by apply Ro. assert (Hh0 : 0 < h) by apply Ro.
  set (s1 := fun j i => padd (origin inp xi yi (icc inp)) (j * irs inp + i)).
  set (d := fun j i => padd (origin out xo yo (icc out)) (j * irs out + i)).
  set (v := fun j i => val (i / icc out) j (i mod icc out)).
  destruct (@scatter2_1 mem (fun j i => [s1 j i]) d (fun j i vs => f (nth 0 vs 0)) v
              (Z.to_nat h) (Z.to_nat (w * icc out)) m) as (m' & He & Hl & Hfr & Hval).
  - intros j i (Hj & Hi) q [<-|[]]. apply (cell_inb m inp xi yi w h); auto; nia.
  - intros j i (Hj & Hi). apply (cell_inb m out xo yo w h); auto; nia.
  - intros j i (Hj & Hi). cbn [map nth].
    destruct (split_index (icc out) i w) as (A & B & C); try nia.
    unfold v. rewrite <- Hf by (unfold inside; nia). unfold pixel, s1. rewrite px_origin.
    f_equal. f_equal. f_equal. rewrite C1. lia.
  - intros j i j' i' (Hj & Hi) (Hj' & Hi') Heq.
    apply (cell_inj m out xo yo w h i j i' j'); auto; nia.
  - intros j i j' i' (Hj & Hi) (Hj' & Hi') [Heq|[]]; symmetry in Heq.
    apply (hazard_samples out xo yo inp xi yi w h); auto; try nia.
  - destruct (@writes_of_samples mem
      (iterM (Z.to_nat h) 0 (fun j => iterM (Z.to_nat (w * icc out)) 0 (fun i =>
         sstep [s1 j i] (d j i) (fun vs => f (nth 0 vs 0)))) m)
      m out xo yo w h v Wo) as (m'' & E'' & V'' & F'').
    + exists m'. split; [exact He|]. split; [exact Hl|]. split.
      * intros q Hq. apply Hfr. intros j i (Hj & Hi). apply Hq; nia.
      * intros j i Hj Hi. apply Hval. nia.
    + exists m''. split; [exact E''|]. split; [|exact F''].
      intros i j c Hin. rewrite V'' by assumption. unfold v.
      destruct Hin as (Hi & Hj & Hc).
      destruct (divmod_flat (icc out) i c) as [D1 D2]; [lia|]. rewrite D1, D2. reflexivity.
Qed.

Lemma pixelwise1_writes pre (f : Z -> res mem Z) val m inp xi yi out xo yo w h :
  wf m inp -> wf m out -> icc inp = icc out -> pre inp out = true ->
  roi_in inp xi yi w h -> roi_in out xo yo w h ->
  no_hazard out xo yo inp xi yi w h ->
  (forall i j c, inside w h (icc out) i j c ->
     f (pixel m inp (xi + i) (yi + j) c) = Ok (val i j c)) ->
  writes (pixelwise1 pre f m inp xi yi out xo yo w h) m out xo yo w h val.
Proof.
  intros W1 Wo C1 Hpre R1 Ro Z1 Hf.
  pose proof (wf_cc_pos _ _ Wo) as Hcc.
  assert (Hw0 : 0 < w) by apply Ro. assert (Hh0 : 0 < h) by apply Ro.
  unfold pixelwise1, valid_roi2.
  rewrite (valid_roi_ok m) by assumption. rewrite (valid_roi_ok m) by assumption.
  rewrite Hpre, C1. cbn [andb].
  rewrite (row_ptr_origin m inp xi yi w h) by (auto; lia).
  rewrite (row_ptr_origin m out xo yo w h) by (auto; lia).
  rewrite (u32_width m out xo w) by (auto; first [apply Ro|lia]).
  destruct (OptimiseRoi (w * icc out) h [inp; out]) as [w' h'] eqn:Ho.
  set (body := fun (cs : list ptr) (m : mem) =>
        bind (load m (c1 cs)) (fun a => bind (f a) (fun v => store m (c0 cs) v)) : res mem mem).
  rewrite <- (Z.mul_1_r (w * icc out)) in Ho.
  pose proof (@walk2_opt mem mem (w * icc out) 1 h [inp; out] w' h' (origin out xo yo (icc out))
               [origin inp xi yi (icc out)] (irs out) [irs inp] body m) as Hrun.
  cbn [length repeat] in Hrun.
  match goal with |- writes ?r _ _ _ _ _ _ _ =>
    replace r with (iterM (Z.to_nat h) 0 (fun j => iterM (Z.to_nat (w * icc out)) 0 (fun i =>
            sstep [padd (origin inp xi yi (icc inp)) (j * irs inp + i)]
                  (padd (origin out xo yo (icc out)) (j * irs out + i))
                  (fun vs => f (nth 0 vs 0)))) m)
  end.
  { apply samples1_writes; auto. }
  symmetry. etransitivity; [apply Hrun|].
  - nia.
  - lia.
  - lia.
  - apply (wf_rs_pos _ _ Wo).
  - exact Ho.
  - intros x [<-|[<-|[]]]; [exists out|exists inp]; simpl; auto.
  - reflexivity.
  - apply (roi_rows_small m out xo yo w h); assumption.
  - apply iterM_ext. intros j s _. apply iterM_ext. intros i t _.
    unfold body, sstep, c0, c1, cells. cbn [zip3 map nth fst snd loads].
    rewrite C1, !Z.mul_1_r, !bind_assoc. apply bind_ext. intros a _. reflexivity.
Qed.

(** ** Copy and Fill *)

Lemma hazard_of_disjoint a xa ya b xb yb w h :
  disjoint a xa ya w h b xb yb w h -> no_hazard a xa ya b xb yb w h.
Proof. intros H i j c i' j' c' H1 H2 He. destruct (H i j c i' j' c' H1 H2 He). Qed.

Lemma disjoint_samples a xa ya wa ha b xb yb wb hb i j i' j' :
  disjoint a xa ya wa ha b xb yb wb hb -> 0 < icc a -> 0 < icc b ->
  0 <= i < wa * icc a -> 0 <= j < ha -> 0 <= i' < wb * icc b -> 0 <= j' < hb ->
  padd (origin a xa ya (icc a)) (j * irs a + i) <> padd (origin b xb yb (icc b)) (j' * irs b + i').
Proof.
  intros Hz Ha Hb Hi Hj Hi' Hj' He.
  destruct (split_index (icc a) i wa) as (A & B & C); try lia.
  destruct (split_index (icc b) i' wb) as (A' & B' & C'); try lia.
  rewrite C, C' in He. rewrite <- !px_origin in He.
  apply (Hz (i / icc a) j (i mod icc a) (i' / icc b) j' (i' mod icc b)); auto; unfold inside; lia.
Qed.

Lemma walk_rows {E T} h p ps r rs (body : list ptr -> T -> res E T) t :
  0 <= h -> 0 < r -> h * r < W32 -> length ps = length rs ->
  walk h (p :: ps) (r :: rs) (padd p (u32 (h * r))) body t
  = iterM (Z.to_nat h) 0 (fun j => body (at_ (p :: ps) (r :: rs) j)) t.
Proof. intros. rewrite u32_small by nia. apply walk_iterM; auto; lia. Qed.

Lemma Copy_writes m inp xi yi out xo yo w h :
  wf m inp -> wf m out -> icc inp = icc out ->
  roi_in inp xi yi w h -> roi_in out xo yo w h ->
  disjoint out xo yo w h inp xi yi w h ->
  writes (Copy m inp xi yi out xo yo w h) m out xo yo w h
    (fun i j c => pixel m inp (xi + i) (yi + j) c).
Proof.
  intros W1 Wo C1 R1 Ro D1.
  pose proof (wf_cc_pos _ _ Wo) as Hcc.
  assert (Hw0 : 0 < w) by apply Ro. assert (Hh0 : 0 < h) by apply Ro.
  unfold Copy, valid_roi2, common_cc2.
  rewrite (valid_roi_ok m) by assumption. rewrite (valid_roi_ok m) by assumption.
  rewrite C1, Z.eqb_refl. cbn [andb].
  rewrite (row_ptr_origin m inp xi yi w h) by (auto; lia).
  rewrite (row_ptr_origin m out xo yo w h) by (auto; lia).
  rewrite (u32_width m out xo w) by (auto; first [apply Ro|lia]).
  destruct (OptimiseRoi (w * icc out) h [inp; out]) as [w' h'] eqn:Ho.
  set (L := [(origin out xo yo (icc out), irs out, 1); (origin inp xi yi (icc out), irs inp, 1)]).
  set (body := fun (cs : list ptr) => @sstep mem [c1 cs] (c0 cs) (fun vs => Ok (nth 0 vs 0))).
  pose proof (roi_rows_small m out xo yo w h Wo Ro) as Hsm.
  pose proof (wf_rs_pos _ _ Wo) as Hrs.
  match goal with |- writes ?r _ _ _ _ _ _ _ =>
    replace r with (iterM (Z.to_nat h) 0 (fun j => iterM (Z.to_nat (w * icc out)) 0 (fun i =>
            sstep [padd (origin inp xi yi (icc inp)) (j * irs inp + i)]
                  (padd (origin out xo yo (icc out)) (j * irs out + i))
                  (fun vs => @Ok mem Z (nth 0 vs 0)))) m)
  end.
  { apply (samples1_writes (@Ok mem Z)); auto using hazard_of_disjoint. }
  symmetry.
  destruct (@opt_iter mem mem (w * icc out) 1 h [inp; out] w' h' L body m) as (n' & Hn' & Hn0 & Hh' & He);
    try nia.
  { rewrite Z.mul_1_r. exact Ho. }
  { intros P r s [H|[H|[]]]; injection H as <- <- <-; split; auto; [exists out|exists inp]; simpl; auto. }
  rewrite Z.mul_1_r in Hn'. subst n'.
  rewrite walk_rows by (auto; nia).
  etransitivity; [|etransitivity; [exact He|]].
  - apply iterM_ext. intros j t Hj.
    unfold at_, c0, c1. cbn [combine map nth fst snd].
    replace w' with (Z.of_nat (Z.to_nat w')) at 1 by lia.
    rewrite memcpy_iterM.
    + apply iterM_ext. intros i u _. unfold body, cells, L, c0, c1. cbn [map nth fst snd].
      rewrite !padd_padd, !Z.mul_1_r. reflexivity.
    + rewrite Z2Nat.id by lia. apply overlaps_false. intros i i' Hi Hi'. rewrite !padd_padd.
      destruct (OptimiseRoi_cases (w * icc out) h [inp; out]) as [E1|(E1 & Hlt & Hall)]; try nia.
      * rewrite E1 in Ho. injection Ho as <- <-. replace (origin inp xi yi (icc out)) with (origin inp xi yi (icc inp)) by (rewrite C1; reflexivity).
        apply (disjoint_samples out xo yo w h inp xi yi w h); auto; try nia.
      * rewrite E1 in Ho. injection Ho as <- <-.
        assert (j = 0) by lia. subst j.
        pose proof (Hall out) as A1. pose proof (Hall inp) as A2. simpl in A1, A2.
        rewrite A1, A2 by auto.
        pose proof (Z.div_mod i (w * icc out)). pose proof (Z.mod_pos_bound i (w * icc out)).
        pose proof (Z.div_mod i' (w * icc out)). pose proof (Z.mod_pos_bound i' (w * icc out)).
        replace (0 * (w * icc out) + i) with (i / (w * icc out) * irs out + i mod (w * icc out))
          by (rewrite A1 by auto; nia).
        replace (0 * (w * icc out) + i') with (i' / (w * icc out) * irs inp + i' mod (w * icc out))
          by (rewrite A2 by auto; nia).
        replace (origin inp xi yi (icc out)) with (origin inp xi yi (icc inp)) by (rewrite C1; reflexivity).
        apply (disjoint_samples out xo yo w h inp xi yi w h); auto; try nia.
  - apply iterM_ext. intros j t Hj. apply iterM_ext. intros i u Hi.
    unfold body, cells, L, c0, c1. cbn [map nth fst snd]. rewrite !Z.mul_1_r, C1. reflexivity.
Qed.

Lemma Fill_writes m im x y w h v :
  wf m im -> roi_in im x y w h ->
  writes (Fill m im x y w h v) m im x y w h (fun _ _ _ => v).
Proof.
  intros Wo Ro.
  pose proof (wf_cc_pos _ _ Wo) as Hcc.
  assert (Hw0 : 0 < w) by apply Ro. assert (Hh0 : 0 < h) by apply Ro.
  unfold Fill.
  rewrite (valid_roi_ok m) by assumption.
  rewrite (row_ptr_origin m im x y w h) by (auto; lia).
  rewrite (u32_width m im x w) by (auto; first [apply Ro|lia]).
  destruct (OptimiseRoi (w * icc im) h [im]) as [w' h'] eqn:Ho.
  set (L := [(origin im x y (icc im), irs im, 1)]).
  set (body := fun (cs : list ptr) => @sstep mem [] (c0 cs) (fun vs => Ok v)).
  pose proof (roi_rows_small m im x y w h Wo Ro) as Hsm.
  pose proof (wf_rs_pos _ _ Wo) as Hrs.
  destruct (@opt_iter mem mem (w * icc im) 1 h [im] w' h' L body m) as (n' & Hn' & Hn0 & Hh' & He);
    try nia.
  { rewrite Z.mul_1_r. exact Ho. }
  { intros P r s [H|[]]; injection H as <- <- <-; split; auto; exists im; simpl; auto. }
  rewrite Z.mul_1_r in Hn'. subst n'.
  rewrite walk_rows by (auto; nia).
  set (d := fun j i => padd (origin im x y (icc im)) (j * irs im + i)).
  destruct (@scatter2_1 mem (fun j i => []) d (fun j i vs => Ok v) (fun _ _ => v)
              (Z.to_nat h) (Z.to_nat (w * icc im)) m) as (m' & Hr & Hl & Hfr & Hval).
  - intros j i _ q [].
  - intros j i (Hj & Hi). apply (cell_inb m im x y w h); auto; nia.
  - reflexivity.
  - intros j i j' i' (Hj & Hi) (Hj' & Hi') Heq.
    apply (cell_inj m im x y w h i j i' j'); auto; nia.
  - intros j i j' i' _ _ [].
  - apply (@writes_of_samples mem _ m im x y w h (fun _ _ => v) Wo).
    exists m'. split; [|split; [exact Hl|split]].
    + rewrite <- Hr. etransitivity; [|etransitivity; [exact He|]].
      * apply iterM_ext. intros j t Hj. unfold at_, c0. cbn [combine map nth fst snd].
        replace w' with (Z.of_nat (Z.to_nat w')) at 1 by lia.
        rewrite <- (padd_0 (padd (origin im x y (icc im)) (j * irs im))).
        rewrite memset_iterM. apply iterM_ext. intros i u _.
        unfold body, cells, L, c0, sstep. cbn [map nth fst snd loads bind].
        rewrite padd_padd, Z.mul_1_r. reflexivity.
      * apply iterM_ext. intros j t Hj. apply iterM_ext. intros i u Hi.
        unfold body, cells, L, c0, d. cbn [map nth fst snd]. rewrite !Z.mul_1_r. reflexivity.
    + intros q Hq. apply Hfr. intros j i (Hj & Hi). apply Hq; nia.
    + intros j i Hj Hi. apply Hval. nia.
Qed.
