(** Properties of edge detection: C68, C69, C90 and C91. *)
From Coq Require Import ZArith List Bool Lia Reals Lra Sorted.
From Verif Require Import Base BaseProofs Image Spec ImgFun ImgLemmas Double DoubleProofs Blob Edge NumProofs ReduceProofs
  FileProofs EdgeProofs EdgeScan PropsA.
From Coq Require Import Floats.SpecFloat.
From Flocq Require Import Core IEEE754.BinarySingleNaN.
Import ListNotations.
Open Scope Z_scope.
Ltac Zify.zify_post_hook ::= Z.div_mod_to_equations.

(** ** What is to be found *)

(** Value [i] of a line and the step from there to the next value. *)
Definition sample (d : list Z) (i : Z) : Z := nth (Z.to_nat i) d 0.
Definition step (d : list Z) (i : Z) : Z := sample d (i + 1) - sample d i.

(** The real number a float or double stands for. *)
Definition value (x : num) : R := SF2R radix2 x.

(** Where the second derivative is 0: it is [a] at [i] and [b] at [i+1], linear between. *)
Definition crossing (i a b : Z) : R :=
  if a =? b then (IZR i + / 2)%R else (IZR i + IZR a / IZR (a - b))%R.

(** [v] marks a rise of the line [d] between values [i] and [i+1]. *)
Record edge_point (T : ftype) (d : list Z) (top lc rc c : Z) (v : num) (i : Z) : Prop := {
  (* where: *)
  ed_inner : 1 <= i <= Z.of_nat (length d) - 3;
  (* the step there is positive and not less than the two beside it *)
  ed_rise : 0 < step d i;
  ed_left : step d (i - 1) <= step d i;
  ed_right : step d (i + 1) <= step d i;
  (* v is the interpolated position *)
  ed_between : Z.of_nat (length d) <= 2 ^ fst T -> (IZR i <= value v <= IZR (i + 1))%R;
  ed_position : forall k, 0 <= k <= 32 -> Z.of_nat (length d) <= 2 ^ k ->
    (Rabs (value v - crossing i (step d i - step d (i - 1)) (step d (i + 1) - step d i)) <= 3 * bpow radix2 (k - fst T))%R;
  (* the line rises all the way from a+1 to b, and two of its values between a and b differ by c *)
  ed_contrast : exists a b p q, 0 <= a <= i /\ i < b < Z.of_nat (length d) /\ (forall t, a < t < b -> 0 < step d t) /\
    a <= p <= b /\ a <= q <= b /\ sample d q - sample d p >= c;
  (* if asked for, the means of the values on both sides differ by c as well *)
  ed_sides : 0 < lc -> 0 < rc -> lc <= i /\ i + rc < Z.of_nat (length d) /\
    ((lc + 1) * top <= 2 ^ 24 -> rc * top <= 2 ^ 24 ->
     (IZR c - bpow radix2 (-20) <= IZR (zsum rc (fun t => sample d (i + 1 + t))) / IZR rc
                                   - IZR (zsum (lc + 1) (fun t => sample d (i - lc + t))) / IZR (lc + 1))%R)
}.

(** Successive points are at least 1 apart. *)
Definition spaced (l : list num) : Prop := Sorted (fun a b => (1 <= value b - value a)%R) l.

(** Length of a scan line, and number of pixels across. *)
Definition along (P : EdgeParameter) (w h : Z) : Z :=
  match ep_direction P with LEFT_TO_RIGHT | RIGHT_TO_LEFT => w | _ => h end.
Definition across (P : EdgeParameter) (w h : Z) : Z :=
  match ep_direction P with LEFT_TO_RIGHT | RIGHT_TO_LEFT => h | _ => w end.

Definition upto (n : Z) : list Z := map Z.of_nat (seq 0 (Z.to_nat n)).

(** The line that starts [r] pixels into the region: sums of [ep_group] pixels across. *)
Definition line (P : EdgeParameter) (m : mem) (im : image) (x y n r : Z) : list Z :=
  map (fun j => zsum (ep_group P) (fun t =>
         match ep_direction P with
         | LEFT_TO_RIGHT | RIGHT_TO_LEFT => pixel m im (x + j) (y + r + t) 0
         | _ => pixel m im (x + r + t) (y + j) 0
         end)) (upto n).

(** The line as met by a scan in the direction of the coordinate or against it. *)
Definition seen (dir : bool) (l : list Z) : list Z := if dir then l else rev l.

Definition along_scan (P : EdgeParameter) : bool :=
  match ep_direction P with LEFT_TO_RIGHT | TOP_TO_BOTTOM => true | _ => false end.

(** The number [z * 2^e] rounded to type [T]. *)
Definition rounded (T : ftype) (z e : Z) : num := SpecFloat.binary_normalize (fst T) (snd T) z e false.

(** The image point for position [v] on line [r]: across it lies in the middle of the group. *)
Definition place (T : ftype) (P : EdgeParameter) (x y n r : Z) (dir : bool) (v : num) : point :=
  match ep_direction P with
  | LEFT_TO_RIGHT | RIGHT_TO_LEFT =>
      (if dir then tadd T v (rounded T x 0) else tsub T (rounded T (x + n - 1) 0) v,
       rounded T (2 * (y + r) + (ep_group P - 1)) (-1))
  | _ =>
      (rounded T (2 * (x + r) + (ep_group P - 1)) (-1),
       if dir then tadd T (rounded T y 0) v else tsub T (rounded T (y + n - 1) 0) v)
  end.

Definition only_first {A} (l : list A) : list A := match l with [] => [] | a :: _ => [a] end.
Definition only_last {A} (l : list A) : list A := only_first (rev l).

(** [E] gives the points of a line.  Rises in the scan direction are positive edges, rises against
    it negative ones. *)
Definition positive_on (T : ftype) (P : EdgeParameter) (E : list Z -> list num) (m : mem) (im : image)
    (x y n r : Z) : list point :=
  let l := E (seen (along_scan P) (line P m im x y n r)) in
  match ep_gradient P with
  | NEGATIVE => []
  | _ => map (place T P x y n r (along_scan P))
           (match ep_edge P with ALL => l | FIRST => only_first l | LAST => only_last l end)
  end.
Definition negative_on (T : ftype) (P : EdgeParameter) (E : list Z -> list num) (m : mem) (im : image)
    (x y n r : Z) : list point :=
  let l := E (seen (negb (along_scan P)) (line P m im x y n r)) in
  match ep_gradient P with
  | POSITIVE => []
  | _ => map (place T P x y n r (negb (along_scan P)))
           (match ep_edge P with ALL => l | FIRST => only_last l | LAST => only_first l end)
  end.

(** The lines start every [ep_skip] pixels as long as a whole group fits. *)
Definition line_starts (P : EdgeParameter) (ext : Z) : list Z :=
  map (fun k => k * ep_skip P) (upto ((ext - ep_group P) / ep_skip P + 1)).

(** Parameters for which nothing overflows. *)
Record safe_parameters (P : EdgeParameter) (n ext : Z) : Prop := {
  sp_group : 1 <= ep_group P <= ext;
  sp_sum : 1020 * ep_group P < 2 ^ 31;
  sp_skip : 1 <= ep_skip P < 2 ^ 32;
  sp_contrast : 1 <= ep_contrast P < 256;
  sp_left : 0 <= ep_left P < 2 ^ 32;
  sp_right : 0 <= ep_right P /\ ep_right P + n <= 2 ^ 32
}.

(** ** Between these definitions and those of the proofs *)

Lemma pick_first {A} (l : list A) : pick true l = only_first l.
Proof. destruct l; reflexivity. Qed.
Lemma pick_last {A} (l : list A) : pick false l = only_last l.
Proof. unfold only_last. cbn [pick]. unfold last_of. destruct (rev l); reflexivity. Qed.

Lemma line_is P m im x y n r : line P m im x y n r = prof P m im x y n r.
Proof. unfold line, prof, tab, pix, horizontal. destruct (ep_direction P); reflexivity. Qed.

Lemma line_pos_is T P m im x y n r : line_pos T P m im x y n r = positive_on T P (raw T P) m im x y n r.
Proof.
  unfold positive_on. rewrite line_is. unfold line_pos, positive_wanted, up_points, down_points, selected, selected_rev, place, seen, along_scan, horizontal, forward.
  destruct (ep_gradient P); try reflexivity; destruct (ep_direction P), (ep_edge P); cbn [negb];
    rewrite ?pick_first, ?pick_last; reflexivity.
Qed.
Lemma line_neg_is T P m im x y n r : line_neg T P m im x y n r = negative_on T P (raw T P) m im x y n r.
Proof.
  unfold negative_on. rewrite line_is. unfold line_neg, negative_wanted, up_points, down_points, selected, selected_rev, place, seen, along_scan, horizontal, forward.
  destruct (ep_gradient P); try reflexivity; destruct (ep_direction P), (ep_edge P); cbn [negb];
    rewrite ?pick_first, ?pick_last; reflexivity.
Qed.

Lemma flat_map_map {A B C} (f : A -> B) (g : B -> list C) l : flat_map g (map f l) = flat_map (fun a => g (f a)) l.
Proof. induction l as [|a l IH]; [reflexivity|]. cbn [map flat_map]. rewrite IH. reflexivity. Qed.

Lemma safe_good P n ext : safe_parameters P n ext -> good_parameters P n ext.
Proof. intros [? ? ? ? ? ?]. unfold good_parameters, W32. lia. Qed.

Lemma pair_ok {A B E} (a a' : A) (b b' : B) : a = a' -> b = b' -> @Ok E _ (a, b) = Ok (a', b').
Proof. intros -> ->. reflexivity. Qed.

(** The first theorem in terms of [raw]. *)
Lemma find_lines T m im x y w h P : real_type T -> area m im x y w h -> icc im = 1 -> bytes m im ->
  4 <= along P w h -> safe_parameters P (along P w h) (across P w h) ->
  find T m im x y w h P
  = Ok (flat_map (positive_on T P (raw T P) m im x y (along P w h)) (line_starts P (across P w h)),
        flat_map (negative_on T P (raw T P) m im x y (along P w h)) (line_starts P (across P w h))).
Proof.
  intros HT Ha Hc Hb Hn Hs. apply safe_good in Hs.
  pose proof (find_ok T m im x y w h P HT Ha Hc Hb) as F. cbv zeta in F.
  replace (if horizontal P then w else h) with (along P w h) in F
    by (unfold horizontal, along; destruct (ep_direction P); reflexivity).
  replace (if horizontal P then h else w) with (across P w h) in F
    by (unfold horizontal, across; destruct (ep_direction P); reflexivity).
  rewrite (F Hn Hs). unfold line_starts. rewrite !flat_map_map. apply pair_ok; apply flat_map_ext; intros k.
  - apply line_pos_is.
  - apply line_neg_is.
Qed.

Definition settings (g lc rc c : Z) : EdgeParameter := mkEdgeParameter LEFT_TO_RIGHT ANY ALL g 1 lc rc c.

Lemma raw_settings T P d : raw T P d = raw T (settings (ep_group P) (ep_left P) (ep_right P) (ep_contrast P)) d.
Proof. destruct P as [dr gr ed g sk l r c]. reflexivity. Qed.

Lemma contrast_product c g : 1 <= c < 256 -> 1 <= g -> 1020 * g < 2 ^ 31 -> s32 (u32 (c * g)) = c * g.
Proof.
  intros Hc Hg H. assert (0 <= c * g <= 255 * g) by (split; [apply Z.mul_nonneg_nonneg; lia|apply Z.mul_le_mono_nonneg_r; lia]).
  rewrite u32_small by (unfold W32; lia). unfold s32. destruct (Z.ltb_spec (c * g) 2147483648); lia.
Qed.

Lemma is_edge_point T d B lc rc c v : real_type T -> 0 <= B -> 4 * B < 2147483648 -> within B d ->
  Z.of_nat (length d) < W32 -> is_edge T d B lc rc c v -> exists i, edge_point T d B lc rc c v i.
Proof.
  intros HT HB H4 Hd Hn (i & Hi & H1 & H2 & H3 & Ev & Hc & Hs). exists i.
  assert (L2 : length (D2 d) = length d) by (apply D2_length; lia).
  pose proof (Forall_at _ (D2 d) i (D2_within B d HB Hd) ltac:(lia)) as Wa.
  pose proof (Forall_at _ (D2 d) (i + 1) (D2_within B d HB Hd) ltac:(lia)) as Wb.
  cbv beta in Wa, Wb. unfold W32 in Hn.
  assert (S0 : forall t, 0 <= t < Z.of_nat (length d) - 1 -> at_z (D1 d) t = step d t) by (intros t Ht; apply D1_at; lia).
  assert (A1 : at_z (D2 d) i = step d i - step d (i - 1)).
  { rewrite D2_at by lia. rewrite !S0 by lia. reflexivity. }
  assert (A2 : at_z (D2 d) (i + 1) = step d (i + 1) - step d i).
  { rewrite D2_at by lia. rewrite !S0 by lia. replace (i + 1 - 1) with i by lia. reflexivity. }
  rewrite S0 in H3 by lia.
  constructor.
  - exact Hi.
  - lia.
  - lia.
  - lia.
  - intros Hp. destruct (pt_value T i (at_z (D2 d) i) (at_z (D2 d) (i + 1)) 32) as (r & V1 & V2 & V3 & _); auto; try lia.
    rewrite Ev. unfold value. rewrite (isN_val T _ _ V1 : SF2R radix2 _ = r). apply V3. lia.
  - intros k Hk Hnk. destruct (pt_value T i (at_z (D2 d) i) (at_z (D2 d) (i + 1)) k) as (r & V1 & V2 & _ & V3); auto; try lia.
    rewrite Ev. unfold value. rewrite (isN_val T _ _ V1 : SF2R radix2 _ = r). unfold crossing.
    unfold exact_pt in V3. rewrite <- A1, <- A2. exact V3.
  - destruct Hc as (a & b & p & q & Ha & Hb & Hr & Hp & Hq & Hpq). exists a, b, p, q.
    repeat (split; [assumption|]). split; [|repeat (split; [assumption|]); exact Hpq].
    intros t Ht. rewrite <- S0 by lia. apply Hr. exact Ht.
  - exact Hs.
Qed.

(** ** C68 *)

(** The points on a line are given by a function [E] that knows only the type and four of the
    parameters; they are edges of the line and at least one pixel apart.  find applies it to the
    lines of the region. *)
Theorem C68_find : forall T g lc rc c, real_type T -> exists E : list Z -> list num,
  (forall d, 4 <= Z.of_nat (length d) < 2 ^ 32 -> Forall (fun v => 0 <= v <= 255 * g) d ->
     1 <= g -> 1020 * g < 2 ^ 31 -> 1 <= c < 256 -> 0 <= lc < 2 ^ 32 -> 0 <= rc -> rc + Z.of_nat (length d) <= 2 ^ 32 ->
     spaced (E d) /\ Forall (fun v => exists i, edge_point T d (255 * g) lc rc (c * g) v i) (E d)) /\
  (forall m im x y w h P,
     ep_group P = g -> ep_left P = lc -> ep_right P = rc -> ep_contrast P = c ->
     area m im x y w h -> icc im = 1 -> bytes m im ->
     4 <= along P w h -> safe_parameters P (along P w h) (across P w h) ->
     find T m im x y w h P
     = Ok (flat_map (positive_on T P E m im x y (along P w h)) (line_starts P (across P w h)),
           flat_map (negative_on T P E m im x y (along P w h)) (line_starts P (across P w h)))).
Proof.
  intros T g lc rc c HT. exists (raw T (settings g lc rc c)). split.
  - intros d Hn Hd Hg Hg2 Hc Hlc Hrc Hrn.
    destruct (raw_ok T (settings g lc rc c) d (255 * g) HT ltac:(lia) ltac:(lia) Hd) as (S1 & S2).
    { unfold fits. cbn [settings ep_left ep_right]. unfold W32. lia. }
    split; [exact S1|]. eapply Forall_impl; [|exact S2]. intros v Hv.
    cbn [settings ep_left ep_right ep_contrast ep_group] in Hv. rewrite contrast_product in Hv by lia.
    eapply is_edge_point in Hv; try lia; auto. unfold W32. lia.
  - intros m im x y w h P E1 E2 E3 E4 Ha Hc Hb Hn Hs. rewrite find_lines by assumption.
    assert (X : forall d, raw T P d = raw T (settings g lc rc c) d).
    { intros d. rewrite raw_settings, E1, E2, E3, E4. reflexivity. }
    apply pair_ok; apply flat_map_ext; intros r; unfold positive_on, negative_on; rewrite X; reflexivity.
Qed.

(** The result depends on nothing but the pixels of the region. *)
Theorem C68_local : forall T m m' im x y w h P, real_type T ->
  area m im x y w h -> area m' im x y w h -> icc im = 1 -> bytes m im -> bytes m' im ->
  4 <= along P w h -> safe_parameters P (along P w h) (across P w h) ->
  (forall i j, 0 <= i < w -> 0 <= j < h -> pixel m' im (x + i) (y + j) 0 = pixel m im (x + i) (y + j) 0) ->
  find T m' im x y w h P = find T m im x y w h P.
Proof.
  intros T m m' im x y w h P HT Ha Ha' Hc Hb Hb' Hn Hs E. rewrite !find_lines by assumption.
  assert (L : forall r, In r (line_starts P (across P w h)) ->
            line P m' im x y (along P w h) r = line P m im x y (along P w h) r).
  { intros r Hr. unfold line_starts in Hr. apply in_map_iff in Hr. destruct Hr as (k & <- & Hk).
    unfold upto in Hk. apply in_map_iff in Hk. destruct Hk as (k0 & <- & Hk). apply in_seq in Hk.
    destruct Hs as [[G1 G2] _ [K1 _] _ _ _].
    assert (B : 0 <= Z.of_nat k0 * ep_skip P <= across P w h - ep_group P).
    { split; [apply Z.mul_nonneg_nonneg; lia|].
      assert (Z.of_nat k0 <= (across P w h - ep_group P) / ep_skip P) by lia.
      pose proof (Z.mul_div_le (across P w h - ep_group P) (ep_skip P) ltac:(lia)).
      apply Z.le_trans with ((across P w h - ep_group P) / ep_skip P * ep_skip P); [apply Z.mul_le_mono_nonneg_r; lia|lia]. }
    unfold line, upto. rewrite !map_map. apply map_ext_in. intros j Hj. apply in_seq in Hj.
    apply zsum_ext. intros t Ht. unfold across, along in *.
    destruct (ep_direction P);
      rewrite <- ?(Z.add_assoc y), <- ?(Z.add_assoc x); apply E; lia. }
  assert (FM : forall (f g : Z -> list point) l, (forall r, In r l -> f r = g r) -> flat_map f l = flat_map g l).
  { intros f g l. induction l as [|a l IH]; intros Hl; [reflexivity|]. cbn [flat_map].
    rewrite Hl by (left; reflexivity). rewrite IH; [reflexivity|]. intros r Hr. apply Hl. right. exact Hr. }
  apply pair_ok; apply FM; intros r Hr; unfold positive_on, negative_on; rewrite L by exact Hr; reflexivity.
Qed.

(** Lines of fewer than four pixels have no edges. *)
Theorem C68_short : forall T m im x y w h P,
  area m im x y w h -> icc im = 1 -> ep_group P <> 0 -> ep_skip P <> 0 -> ep_contrast P <> 0 -> along P w h < 4 ->
  find T m im x y w h P = Ok ([], []).
Proof.
  intros T m im x y w h P (Hw & Hr) Hc Hg Hs Hk Hn. unfold find.
  replace (icc im =? GRAY_SCALE) with true by (symmetry; apply Z.eqb_eq; exact Hc).
  rewrite (valid_roi_ok m im x y w h Hw Hr). unfold verify.
  destruct (Z.eqb_spec (ep_group P) 0); [lia|]. destruct (Z.eqb_spec (ep_skip P) 0); [lia|].
  destruct (Z.eqb_spec (ep_contrast P) 0); [lia|]. cbn [negb andb].
  replace (horizontal P && (w <? 4) || negb (horizontal P) && (h <? 4)) with true; [reflexivity|].
  unfold horizontal, along in *. destruct (ep_direction P); cbn [negb andb orb]; rewrite ?orb_false_r; symmetry; apply Z.ltb_lt; exact Hn.
Qed.

(** Colour images, zero settings and regions that do not fit are rejected. *)
Theorem C68_rejects : forall T m im x y w h P, args_u32 im x y w h ->
  (icc im <> 1 \/ ~ valid_arg im x y w h \/ ep_group P = 0 \/ ep_skip P = 0 \/ ep_contrast P = 0) ->
  rejected (find T m im x y w h P) m.
Proof.
  intros T m im x y w h P Hu H. unfold rejected, find.
  destruct (Z.eqb_spec (icc im) GRAY_SCALE) as [C|C]; [|reflexivity].
  destruct (valid_roi im x y w h) eqn:V; [|reflexivity].
  destruct (verify P) eqn:VP; [|reflexivity]. exfalso.
  unfold verify in VP. apply andb_prop in VP. destruct VP as [VP V3]. apply andb_prop in VP. destruct VP as [V1 V2].
  apply negb_true_iff in V1, V2, V3. apply Z.eqb_neq in V1, V2, V3.
  destruct H as [H|[H|[H|[H|H]]]]; try contradiction.
  rewrite (args_bad im x y w h Hu H) in V. discriminate.
Qed.

Example C68_case : let P := mkEdgeParameter LEFT_TO_RIGHT ANY ALL 2 3 1 1 20 in
  area emem (img 1 9 8 1 10) 1 0 7 6 /\ 4 <= along P 7 6 /\ safe_parameters P (along P 7 6) (across P 7 6).
Proof. split; [solve_area|]. split; [cbn; lia|]. constructor; cbn; lia. Qed.

(** One positive edge on the row 10 10 10 90 90: between the third and the fourth pixel. *)
Definition step_mem : mem := fun b => mkBlock 4096 (fun o => if o mod 8 <? 3 then 10 else 90).
Example C68_example :
  find DOUBLE step_mem (img 1 5 2 1 8) 0 0 5 2 (mkEdgeParameter LEFT_TO_RIGHT ANY ALL 1 1 0 0 20)
  = Ok ([(S754_finite false 5629499534213120 (-51), S754_zero false);
         (S754_finite false 5629499534213120 (-51), S754_finite false 4503599627370496 (-52))], []).
Proof. vm_compute. reflexivity. Qed.

Example C68_rejects_case : args_u32 (img 1 5 2 1 8) 0 0 5 2 /\ ep_group (settings 0 0 0 1) = 0.
Proof. split; [|reflexivity]. unfold args_u32, u32_image, is_u32, W32; cbn; lia. Qed.

(** ** C69 *)

(** find has defined behaviour for all parameters that verify accepts. *)
Definition C69_claim : Prop := forall T m im x y w h P, real_type T -> area m im x y w h -> icc im = 1 -> bytes m im ->
  0 < ep_group P < 2 ^ 32 -> 0 < ep_skip P < 2 ^ 32 -> 0 < ep_contrast P < 256 ->
  0 <= ep_left P < 2 ^ 32 -> 0 <= ep_right P < 2 ^ 32 -> find T m im x y w h P <> UB.

Lemma loop_first {E S} (cond : S -> bool) (body : S -> res E S) fuel s :
  fuel <> 0%nat -> cond s = true -> body s = UB -> loop fuel cond body s = UB.
Proof. intros Hf Hc Hb. destruct fuel as [|f]; [congruence|]. cbn [loop]. rewrite Hc, Hb. reflexivity. Qed.

Definition row_mem : mem := fun b => mkBlock 4 (fun o => if o <? 2 then 10 else 90).

(** A group of three on a region of height one: the second row is read. *)
Theorem C69_group_refuted : ~ C69_claim.
Proof.
  intros H.
  apply (H DOUBLE row_mem (img 1 4 1 1 4) 0 0 4 1 (mkEdgeParameter LEFT_TO_RIGHT ANY ALL 3 1 0 0 20)); try (cbn; lia).
  - right. reflexivity.
  - solve_area.
  - intros x y c _ _ _. unfold pixel, get, row_mem. cbn [bget]. destruct (_ <? 2); lia.
  - unfold find. change (icc (img 1 4 1 1 4) =? GRAY_SCALE) with true.
    change (valid_roi (img 1 4 1 1 4) 0 0 4 1) with true. cbn [verify ep_group ep_skip ep_contrast].
    change (verify _) with true.
    cbn [horizontal ep_direction negb andb orb]. change (4 <? 4) with false. cbn [orb ep_group].
    change (u32 (u32 (1 - 3) + 1)) with 4294967295.
    rewrite loop_first; [reflexivity| |reflexivity|].
    + unfold fuel_of. lia.
    + vm_compute. reflexivity.
Qed.

(** A right offset of 2^32-1: the check of the end of the range wraps. *)
Theorem C69_contrast_refuted : exists m im x y w h P, area m im x y w h /\ icc im = 1 /\ bytes m im /\
  ep_group P = 1 /\ ep_skip P = 1 /\ 0 < ep_contrast P < 256 /\ 0 <= ep_left P < 2 ^ 32 /\ 0 <= ep_right P < 2 ^ 32 /\
  find DOUBLE m im x y w h P = UB.
Proof.
  exists row_mem, (img 1 4 1 1 4), 0, 0, 4, 1, (mkEdgeParameter LEFT_TO_RIGHT ANY ALL 1 1 1 4294967295 20).
  split; [solve_area|]. split; [reflexivity|]. split.
  { intros x y c _ _ _. unfold pixel, get, row_mem. cbn [bget]. destruct (_ <? 2); lia. }
  cbn [ep_group ep_skip ep_contrast ep_left ep_right]. repeat (split; [lia|]).
  vm_compute. reflexivity.
Qed.

(** ** C90 *)

Definition in_region (x y w h : Z) (p : point) : Prop :=
  (IZR x <= value (fst p) <= IZR (x + w - 1))%R /\ (IZR y <= value (snd p) <= IZR (y + h - 1))%R.

Lemma rounded_value T z e : real_type T -> -1 <= e <= 0 -> 0 <= z <= 2 ^ 34 ->
  isN T (rounded T z e) (rndN T (F2R (Float radix2 z e))) /\ (0 <= F2R (Float radix2 z e) <= bpow radix2 34)%R.
Proof.
  intros HT He Hz. pose proof (real_bounds T HT) as (B1 & B2 & B3).
  assert (F : (0 <= F2R (Float radix2 z e) <= bpow radix2 34)%R).
  { unfold F2R. cbn [Fnum Fexp]. destruct (IZR_bpow z 34) as [Z0 Z1]; [lia|lia|].
    assert (E : (0 < bpow radix2 e <= 1)%R) by (split; [apply bpow_gt_0|change 1%R with (bpow radix2 0); apply bpow_le; lia]).
    split; [apply Rmult_le_pos; lra|]. apply Rle_trans with (IZR z * 1)%R; [apply Rmult_le_compat_l; lra|lra]. }
  split; [|exact F]. destruct T as [p x]. cbn [fst snd] in *. apply isT_normalize; cbn [fst snd]; try lia.
  apply rndT_bound with (e := 34); try lia. rewrite Rabs_pos_eq; lra.
Qed.

Lemma rndN_between T a b r : real_type T -> Z.abs a <= 2 ^ fst T -> Z.abs b <= 2 ^ fst T ->
  (IZR a <= r <= IZR b)%R -> (IZR a <= rndN T r <= IZR b)%R.
Proof.
  intros HT Ha Hb [H1 H2]. apply (rndN_le T _ _ HT) in H1. apply (rndN_le T _ _ HT) in H2.
  rewrite (rndN_IZR T a HT Ha) in H1. rewrite (rndN_IZR T b HT Hb) in H2. auto.
Qed.

Lemma rounded_int T z : real_type T -> 0 <= z <= 2 ^ fst T -> z <= 2 ^ 34 -> isN T (rounded T z 0) (IZR z).
Proof.
  intros HT Hz Hz2. destruct (rounded_value T z 0 HT ltac:(lia) ltac:(lia)) as (R1 & _).
  replace (F2R (Float radix2 z 0)) with (IZR z) in R1 by (unfold F2R; simpl; lra).
  rewrite rndN_IZR in R1 by (auto; lia). exact R1.
Qed.

Lemma small_bound T r : real_type T -> (Rabs r <= bpow radix2 35)%R -> (Rabs (rndN T r) < bpow radix2 (snd T))%R.
Proof.
  intros HT H. pose proof (real_bounds T HT) as (B1 & B2 & B3). unfold rndN.
  apply rndT_bound with (e := 35); try lia. exact H.
Qed.

(** The two ways to place a position. *)
Lemma place_up T x n v r : real_type T -> 0 <= x -> 4 <= n -> x + n <= 2 ^ fst T -> x + n <= 2 ^ 32 ->
  isN T v r -> (1 <= r <= IZR (n - 2))%R ->
  exists a, isN T (tadd T v (rounded T x 0)) a /\ isN T (tadd T (rounded T x 0) v) a /\ a = rndN T (r + IZR x) /\
    (IZR x <= a <= IZR (x + n - 1))%R.
Proof.
  intros HT Hx Hn Hp H32 Hv Hr. pose proof (real_bounds T HT) as (B1 & B2 & B3).
  pose proof (rounded_int T x HT ltac:(lia) ltac:(lia)) as Hx0.
  assert (Q : (IZR (x + 1) <= r + IZR x <= IZR (x + n - 2))%R).
  { rewrite plus_IZR. replace (x + n - 2) with (x + (n - 2)) by lia. rewrite plus_IZR. lra. }
  assert (S : (Rabs (r + IZR x) <= bpow radix2 35)%R).
  { assert (0 <= IZR (x + 1))%R by (apply IZR_le; lia). rewrite Rabs_pos_eq by lra.
    destruct (IZR_bpow (x + n - 2) 35) as [_ K]; [lia|lia|lra]. }
  exists (rndN T (r + IZR x)). repeat split.
  - destruct T as [p e]. apply isT_add; auto; cbn [fst snd] in *; try lia. apply (small_bound (p, e)); auto.
  - rewrite Rplus_comm. destruct T as [p e]. apply isT_add; auto; cbn [fst snd] in *; try lia.
    rewrite Rplus_comm. apply (small_bound (p, e)); auto.
  - destruct (rndN_between T (x + 1) (x + n - 2) (r + IZR x) HT ltac:(lia) ltac:(lia) Q) as [K _].
    assert (IZR x <= IZR (x + 1))%R by (apply IZR_le; lia). lra.
  - destruct (rndN_between T (x + 1) (x + n - 2) (r + IZR x) HT ltac:(lia) ltac:(lia) Q) as [_ K].
    assert (IZR (x + n - 2) <= IZR (x + n - 1))%R by (apply IZR_le; lia). lra.
Qed.

Lemma place_down T x n v r : real_type T -> 0 <= x -> 4 <= n -> x + n <= 2 ^ fst T -> x + n <= 2 ^ 32 ->
  isN T v r -> (1 <= r <= IZR (n - 2))%R ->
  exists a, isN T (tsub T (rounded T (x + n - 1) 0) v) a /\ a = rndN T (IZR (x + n - 1) - r) /\
    (IZR x <= a <= IZR (x + n - 1))%R.
Proof.
  intros HT Hx Hn Hp H32 Hv Hr. pose proof (real_bounds T HT) as (B1 & B2 & B3).
  pose proof (rounded_int T (x + n - 1) HT ltac:(lia) ltac:(lia)) as Hx0.
  assert (Q : (IZR (x + 1) <= IZR (x + n - 1) - r <= IZR (x + n - 2))%R).
  { replace (x + n - 1) with (x + 1 + (n - 2)) by lia. replace (x + n - 2) with (x + 1 + (n - 2) - 1) by lia.
    rewrite minus_IZR, !plus_IZR. lra. }
  assert (S : (Rabs (IZR (x + n - 1) - r) <= bpow radix2 35)%R).
  { assert (0 <= IZR (x + 1))%R by (apply IZR_le; lia). rewrite Rabs_pos_eq by lra.
    destruct (IZR_bpow (x + n - 2) 35) as [_ K]; [lia|lia|lra]. }
  exists (rndN T (IZR (x + n - 1) - r)). repeat split.
  - destruct T as [p e]. apply isT_sub; auto; cbn [fst snd] in *; try lia. apply (small_bound (p, e)); auto.
  - destruct (rndN_between T (x + 1) (x + n - 2) _ HT ltac:(lia) ltac:(lia) Q) as [K _].
    assert (IZR x <= IZR (x + 1))%R by (apply IZR_le; lia). lra.
  - destruct (rndN_between T (x + 1) (x + n - 2) _ HT ltac:(lia) ltac:(lia) Q) as [_ K].
    assert (IZR (x + n - 2) <= IZR (x + n - 1))%R by (apply IZR_le; lia). lra.
Qed.

Lemma middle_value T y r g ext : real_type T -> 0 <= y -> 0 <= r -> 1 <= g -> r + g <= ext -> y + ext <= 2 ^ fst T -> y + ext <= 2 ^ 32 ->
  exists a, isN T (rounded T (2 * (y + r) + (g - 1)) (-1)) a /\
    a = rndN T (IZR (y + r) + IZR (g - 1) / 2) /\ (IZR y <= a <= IZR (y + ext - 1))%R.
Proof.
  intros HT Hy Hr Hg Hext Hp H32.
  destruct (rounded_value T (2 * (y + r) + (g - 1)) (-1) HT ltac:(lia) ltac:(lia)) as (R1 & _).
  assert (E : F2R (Float radix2 (2 * (y + r) + (g - 1)) (-1)) = (IZR (y + r) + IZR (g - 1) / 2)%R).
  { unfold F2R. cbn [Fnum Fexp]. change (bpow radix2 (-1)) with (/ 2)%R. rewrite plus_IZR, mult_IZR. lra. }
  rewrite E in R1. eexists. split; [exact R1|]. split; [reflexivity|].
  apply rndN_between; auto; try lia.
  assert (G0 : (0 <= IZR (g - 1))%R) by (apply IZR_le; lia).
  assert (Y1 : (IZR y <= IZR (y + r))%R) by (apply IZR_le; lia).
  assert (Y2 : (IZR (y + r) + IZR (g - 1) <= IZR (y + ext - 1))%R) by (rewrite <- plus_IZR; apply IZR_le; lia).
  lra.
Qed.

Lemma In_starts P ext r : 1 <= ep_skip P -> 1 <= ep_group P <= ext -> In r (line_starts P ext) -> 0 <= r /\ r + ep_group P <= ext.
Proof.
  intros Hs Hg Hr. unfold line_starts, upto in Hr. apply in_map_iff in Hr. destruct Hr as (k & <- & Hk).
  apply in_map_iff in Hk. destruct Hk as (k0 & <- & Hk). apply in_seq in Hk.
  split; [apply Z.mul_nonneg_nonneg; lia|].
  assert (Z.of_nat k0 <= (ext - ep_group P) / ep_skip P) by lia.
  pose proof (Z.mul_div_le (ext - ep_group P) (ep_skip P) ltac:(lia)).
  assert (Z.of_nat k0 * ep_skip P <= (ext - ep_group P) / ep_skip P * ep_skip P) by (apply Z.mul_le_mono_nonneg_r; lia).
  lia.
Qed.

Lemma line_within m im x y w h P r : area m im x y w h -> icc im = 1 -> bytes m im -> 0 <= r -> 1 <= ep_group P ->
  r + ep_group P <= across P w h -> within (255 * ep_group P) (line P m im x y (along P w h) r).
Proof.
  intros (Hw & [R1 R2 R3 R4 R5 R6]) Hc Hb Hr Hg Hx. rewrite line_is, Z.mul_comm. apply prof_within; [lia|].
  intros j t Hj Ht. unfold pix, along, across, horizontal in *.
  destruct (ep_direction P); match goal with |- 0 <= pixel _ _ ?a ?b _ <= _ =>
    pose proof (Hb a b 0 ltac:(lia) ltac:(lia) ltac:(lia)); lia end.
Qed.

Lemma line_length P m im x y n r : length (line P m im x y n r) = Z.to_nat n.
Proof. rewrite line_is. apply prof_length. Qed.

Lemma seen_length dir l : length (seen dir l) = length l.
Proof. destruct dir; [reflexivity|apply rev_length]. Qed.
Lemma seen_within dir B l : within B l -> within B (seen dir l).
Proof. destruct dir; [auto|apply within_rev]. Qed.

Lemma area_small m im x y w h : area m im x y w h -> x + w <= 2 ^ 32 /\ y + h <= 2 ^ 32.
Proof.
  intros (Hw & [R1 R2 R3 R4 R5 R6]). pose proof (wf_bounds _ _ Hw) as (B1 & B2 & _). unfold W32 in *. lia.
Qed.

(** A placed position lies in the region. *)
Lemma place_inside T P x y w h r dir v a : real_type T -> 0 <= x -> 0 <= y -> 4 <= along P w h ->
  x + w <= 2 ^ fst T -> y + h <= 2 ^ fst T -> x + w <= 2 ^ 32 -> y + h <= 2 ^ 32 -> 1 <= ep_group P ->
  0 <= r -> r + ep_group P <= across P w h -> isN T v a -> (1 <= a <= IZR (along P w h - 2))%R ->
  in_region x y w h (place T P x y (along P w h) r dir v).
Proof.
  intros HT Hx Hy Hn Px Py X32 Y32 Hg Hr Hr2 Hv Ha. unfold in_region, place, value.
  unfold along, across in *. destruct (ep_direction P); cbn [fst snd].
  - destruct (middle_value T y r (ep_group P) h) as (b & M1 & _ & M2); auto.
    rewrite (isN_val T _ _ M1 : SF2R radix2 _ = b). split; [|exact M2]. destruct dir.
    + destruct (place_up T x w v a) as (c & A1 & _ & _ & A2); auto. rewrite (isN_val T _ _ A1 : SF2R radix2 _ = c). exact A2.
    + destruct (place_down T x w v a) as (c & A1 & _ & A2); auto. rewrite (isN_val T _ _ A1 : SF2R radix2 _ = c). exact A2.
  - destruct (middle_value T y r (ep_group P) h) as (b & M1 & _ & M2); auto.
    rewrite (isN_val T _ _ M1 : SF2R radix2 _ = b). split; [|exact M2]. destruct dir.
    + destruct (place_up T x w v a) as (c & A1 & _ & _ & A2); auto. rewrite (isN_val T _ _ A1 : SF2R radix2 _ = c). exact A2.
    + destruct (place_down T x w v a) as (c & A1 & _ & A2); auto. rewrite (isN_val T _ _ A1 : SF2R radix2 _ = c). exact A2.
  - destruct (middle_value T x r (ep_group P) w) as (b & M1 & _ & M2); auto.
    rewrite (isN_val T _ _ M1 : SF2R radix2 _ = b). split; [exact M2|]. destruct dir.
    + destruct (place_up T y h v a) as (c & _ & A1 & _ & A2); auto. rewrite (isN_val T _ _ A1 : SF2R radix2 _ = c). exact A2.
    + destruct (place_down T y h v a) as (c & A1 & _ & A2); auto. rewrite (isN_val T _ _ A1 : SF2R radix2 _ = c). exact A2.
  - destruct (middle_value T x r (ep_group P) w) as (b & M1 & _ & M2); auto.
    rewrite (isN_val T _ _ M1 : SF2R radix2 _ = b). split; [exact M2|]. destruct dir.
    + destruct (place_up T y h v a) as (c & _ & A1 & _ & A2); auto. rewrite (isN_val T _ _ A1 : SF2R radix2 _ = c). exact A2.
    + destruct (place_down T y h v a) as (c & A1 & _ & A2); auto. rewrite (isN_val T _ _ A1 : SF2R radix2 _ = c). exact A2.
Qed.

(** Every point that find reports comes from a rise of one of the lines, seen in the right
    direction, and lies in the region. *)
Definition explained (T : ftype) (P : EdgeParameter) (m : mem) (im : image) (x y w h : Z) (dir : bool) (p : point) : Prop :=
  exists r v i, In r (line_starts P (across P w h)) /\
    edge_point T (seen dir (line P m im x y (along P w h) r)) (255 * ep_group P) (ep_left P) (ep_right P)
      (ep_contrast P * ep_group P) v i /\
    p = place T P x y (along P w h) r dir v /\ in_region x y w h p.

Lemma explain T m im x y w h P dir r v : real_type T -> area m im x y w h -> icc im = 1 -> bytes m im ->
  4 <= along P w h -> safe_parameters P (along P w h) (across P w h) -> x + w <= 2 ^ fst T -> y + h <= 2 ^ fst T ->
  In r (line_starts P (across P w h)) -> In v (raw T P (seen dir (line P m im x y (along P w h) r))) ->
  explained T P m im x y w h dir (place T P x y (along P w h) r dir v).
Proof.
  intros HT Ha Hc Hb Hn Hs Px Py Hr Hv. pose proof Ha as (_ & [R1 R2 _ _ _ _]).
  destruct (area_small _ _ _ _ _ _ Ha) as [X32 Y32].
  pose proof Ha as (Hw & [_ _ _ _ R5 R6]). pose proof (wf_bounds _ _ Hw) as (B1 & B2 & _). unfold W32 in B1, B2.
  assert (N3 : along P w h < 2 ^ 32) by (unfold along; destruct (ep_direction P); lia).
  pose proof Hs as [S1 S2 S3 S4 S5 S6].
  destruct (In_starts P _ r ltac:(lia) S1 Hr) as (Hr0 & Hr1).
  set (d := seen dir (line P m im x y (along P w h) r)) in *.
  assert (Ld : Z.of_nat (length d) = along P w h).
  { unfold d. rewrite seen_length, line_length. lia. }
  assert (Wd : within (255 * ep_group P) d).
  { unfold d. apply seen_within. apply line_within; auto; lia. }
  destruct (raw_ok T P d (255 * ep_group P) HT ltac:(lia) ltac:(lia) Wd) as (_ & Q).
  { unfold fits. rewrite Ld. unfold W32. lia. }
  rewrite Forall_forall in Q. specialize (Q v Hv). rewrite contrast_product in Q by lia.
  pose proof Q as (i & Hi & H1 & H2 & _ & Ev & _).
  assert (L2 : length (D2 d) = length d) by (apply D2_length; lia).
  pose proof (Forall_at _ (D2 d) i (D2_within (255 * ep_group P) d ltac:(lia) Wd) ltac:(lia)) as Wa.
  pose proof (Forall_at _ (D2 d) (i + 1) (D2_within (255 * ep_group P) d ltac:(lia) Wd) ltac:(lia)) as Wb.
  cbv beta in Wa, Wb.
  assert (NP : along P w h <= 2 ^ fst T) by (unfold along; destruct (ep_direction P); lia).
  destruct (pt_value T i (at_z (D2 d) i) (at_z (D2 d) (i + 1)) 32) as (a & V1 & _ & V2 & _); auto; try lia.
  rewrite <- Ev in V1. specialize (V2 ltac:(lia)).
  destruct (is_edge_point T d (255 * ep_group P) (ep_left P) (ep_right P) (ep_contrast P * ep_group P) v) as (i' & Hi'); auto; try lia.
  { unfold W32. lia. }
  exists r, v, i'. split; [exact Hr|]. split; [exact Hi'|]. split; [reflexivity|].
  apply place_inside with (a := a); auto; try lia.
  assert (1 <= IZR i)%R by (apply IZR_le; lia). assert (IZR (i + 1) <= IZR (along P w h - 2))%R by (apply IZR_le; lia). lra.
Qed.

Lemma only_first_in {A} (l : list A) a : In a (only_first l) -> In a l.
Proof. destruct l; cbn; [auto|]. intros [->|[]]. left. reflexivity. Qed.
Lemma only_last_in {A} (l : list A) a : In a (only_last l) -> In a l.
Proof. intros H. apply in_rev. apply only_first_in. exact H. Qed.

Theorem C90_points : forall T m im x y w h P pos neg, real_type T -> area m im x y w h -> icc im = 1 -> bytes m im ->
  4 <= along P w h -> safe_parameters P (along P w h) (across P w h) -> x + w <= 2 ^ fst T -> y + h <= 2 ^ fst T ->
  find T m im x y w h P = Ok (pos, neg) ->
  Forall (explained T P m im x y w h (along_scan P)) pos /\
  Forall (explained T P m im x y w h (negb (along_scan P))) neg.
Proof.
  intros T m im x y w h P pos neg HT Ha Hc Hb Hn Hs Px Py E. rewrite find_lines in E by assumption. inversion E as [[E1 E2]].
  split; apply Forall_forall; intros p Hp; apply in_flat_map in Hp; destruct Hp as (r & Hr & Hp).
  - unfold positive_on in Hp. set (l := raw _ _ _) in Hp.
    assert (exists v, In v l /\ p = place T P x y (along P w h) r (along_scan P) v) as (v & Hv & ->).
    { destruct (ep_gradient P); [| destruct Hp |]; apply in_map_iff in Hp; destruct Hp as (v & <- & Hv); exists v; split; auto;
        destruct (ep_edge P); auto using only_first_in, only_last_in. }
    apply explain; auto.
  - unfold negative_on in Hp. set (l := raw _ _ _) in Hp.
    assert (exists v, In v l /\ p = place T P x y (along P w h) r (negb (along_scan P)) v) as (v & Hv & ->).
    { destruct (ep_gradient P); [destruct Hp| |]; apply in_map_iff in Hp; destruct Hp as (v & <- & Hv); exists v; split; auto;
        destruct (ep_edge P); auto using only_first_in, only_last_in. }
    apply explain; auto.
Qed.

(** ** C91 *)

Lemma left_scan_eq first half mn mx j normal :
  left_scan first half mn mx j normal
  = (do v <- vnth first (Z.of_nat j);
     let normal := match normal with None => if v <? half then Some (Z.of_nat j) else None | Some _ => normal end in
     if v <? mn then Ok (normal, Some (Z.of_nat j))
     else if mx <? v then Ok (normal, None)
     else match j with O => Ok (normal, None) | S j' => left_scan first half mn mx j' normal end).
Proof. destruct j; reflexivity. Qed.

(** One step up, between [k] and [k+1]. *)
Definition step_up (d : list Z) (k lo hi : Z) : Prop :=
  forall j, 0 <= j < Z.of_nat (length d) -> at_z d j = if j <=? k then lo else hi.

Lemma step_D1 d k lo hi t : step_up d k lo hi -> 0 <= k -> k <= Z.of_nat (length d) - 2 -> 0 <= t < Z.of_nat (length d) - 1 ->
  at_z (D1 d) t = if t =? k then hi - lo else 0.
Proof.
  intros H Hk Hk2 Ht. rewrite D1_at by lia. rewrite !H by lia.
  destruct (Z.leb_spec (t + 1) k), (Z.leb_spec t k), (Z.eqb_spec t k); lia.
Qed.

Lemma edge_at_step T d k lo hi B P minC edge :
  let n := Z.of_nat (length d) in
  0 <= B -> 4 * B < 2147483648 -> within B d -> fits P n -> (ep_left P = 0 \/ ep_right P = 0) ->
  step_up d k lo hi -> 1 <= k <= n - 3 -> 1 <= minC <= hi - lo ->
  edge_at T d (D1 d) (D2 d) P minC k edge = Ok (edge ++ [pt T k (hi - lo) (lo - hi)]).
Proof.
  intros n HB H4 Hd (Hn4 & Hn & Hlc & Hrc & Hrn) Hz Hs Hk Hc.
  assert (L1 : Z.of_nat (length (D1 d)) = n) by (rewrite D1_length by lia; reflexivity).
  assert (L2 : Z.of_nat (length (D2 d)) = n) by (rewrite D2_length by lia; reflexivity).
  assert (U1 : u32 (k + 1) = k + 1) by (apply u32_small; lia).
  assert (U2 : u32 (n - 1) = n - 1) by (apply u32_small; lia).
  assert (F : forall t, 0 <= t < n - 1 -> at_z (D1 d) t = if t =? k then hi - lo else 0).
  { intros t Ht. apply (step_D1 d k lo hi t Hs); fold n; lia. }
  assert (F0 : at_z (D1 d) k = hi - lo) by (rewrite F, Z.eqb_refl by lia; reflexivity).
  assert (Fm : at_z (D1 d) (k - 1) = 0) by (rewrite F by lia; destruct (Z.eqb_spec (k - 1) k); lia).
  assert (Fp : at_z (D1 d) (k + 1) = 0) by (rewrite F by lia; destruct (Z.eqb_spec (k + 1) k); lia).
  assert (S0 : at_z (D2 d) k = hi - lo) by (rewrite D2_at by (fold n; lia); lia).
  assert (S1 : at_z (D2 d) (k + 1) = lo - hi).
  { rewrite D2_at by (fold n; lia). replace (k + 1 - 1) with k by lia. lia. }
  pose proof (Forall_at _ d k Hd ltac:(fold n; lia)) as Wlo. cbv beta in Wlo.
  pose proof (Forall_at _ d (k + 1) Hd ltac:(fold n; lia)) as Whi. cbv beta in Whi.
  assert (V0 : at_z d k = lo) by (rewrite Hs by (fold n; lia); destruct (Z.leb_spec k k); lia).
  assert (Vm : at_z d (k - 1) = lo) by (rewrite Hs by (fold n; lia); destruct (Z.leb_spec (k - 1) k); lia).
  assert (Vp : at_z d (k + 1) = hi) by (rewrite Hs by (fold n; lia); destruct (Z.leb_spec (k + 1) k); lia).
  assert (CK : (0 <? ep_left P) && (0 <? ep_right P) = false).
  { destruct Hz as [-> | ->]; [reflexivity|]. rewrite andb_comm. reflexivity. }
  unfold edge_at. fold n. rewrite vnth_ok by lia. cbn [bind]. rewrite S0.
  destruct (Z.ltb_spec (hi - lo) 0); [lia|]. rewrite U1, U2, vnth_ok by lia. cbn [bind]. rewrite S1.
  destruct (Z.ltb_spec 0 (lo - hi)); [lia|]. rewrite !vnth_ok by lia. cbn [bind]. rewrite F0, Fp.
  destruct (Z.ltb_spec 0 (hi - lo)); [|lia]. destruct (Z.leb_spec (hi - lo) 0); [lia|].
  set (ht := hi - lo) in *. set (mn := if ht <? 3 then 1 else _). set (hf := if ht <? 2 then 1 else _).
  assert (Hmn : 1 <= mn <= ht) by (unfold mn; destruct (Z.ltb_spec ht 3); lia).
  assert (Hhf : 1 <= hf <= ht) by (unfold hf; destruct (Z.ltb_spec ht 2); lia).
  rewrite left_scan_eq, vnth_ok, Z2Nat.id, F0 by lia. cbn [bind].
  destruct (Z.ltb_spec ht hf); [lia|]. destruct (Z.ltb_spec ht mn); [lia|]. rewrite Z.ltb_irrefl.
  destruct (Z.to_nat k) as [|k'] eqn:Ek; [lia|].
  rewrite left_scan_eq, vnth_ok by lia. cbn [bind]. replace (Z.of_nat k') with (k - 1) by lia. rewrite Fm.
  destruct (Z.ltb_spec 0 hf); [|lia]. destruct (Z.ltb_spec 0 mn); [|lia]. cbn [bind].
  destruct (Z.to_nat (n - 1 - (k + 1))) as [|k''] eqn:Ek2; [lia|]. cbn [right_scan].
  rewrite vnth_ok by lia. cbn [bind]. rewrite Fp.
  destruct (Z.ltb_spec 0 hf); [|lia]. destruct (Z.ltb_spec 0 mn); [|lia]. cbn [bind].
  rewrite CK. unfold findPoint.
  destruct (range_ok d (k - 1) (k + 1 + 1)) as (r & -> & Lr & _ & Ar); [lia|fold n; lia|]. cbn [bind].
  pose proof (Ar 0 ltac:(lia)) as A0. pose proof (Ar 1 ltac:(lia)) as A1. pose proof (Ar 2 ltac:(lia)) as A2.
  replace (k - 1 + 0) with (k - 1) in A0 by lia. replace (k - 1 + 1) with k in A1 by lia. replace (k - 1 + 2) with (k + 1) in A2 by lia.
  rewrite Vm in A0. rewrite V0 in A1. rewrite Vp in A2.
  destruct r as [|a [|b [|c [|]]]]; cbn [length] in Lr; try lia. unfold at_z in A0, A1, A2.
  change (Z.to_nat 0) with 0%nat in A0. change (Z.to_nat 1) with 1%nat in A1. change (Z.to_nat 2) with 2%nat in A2.
  cbn [nth] in A0, A1, A2. rewrite A0, A1, A2 in *. clear A0 A1 A2.
  cbn [max_element min_element fold_left bind].
  replace (Z.max (Z.max lo lo) hi) with hi by lia. replace (Z.min (Z.min lo lo) hi) with lo by lia.
  rewrite int32_ok by lia. cbn [bind]. fold ht. destruct (Z.ltb_spec ht minC); [lia|]. cbn [andb bind].
  rewrite vnth_ok by lia. cbn [bind]. rewrite U1, vnth_ok by lia. cbn [bind]. rewrite S0, S1.
  unfold pt. destruct (ht =? lo - hi) eqn:E.
  - reflexivity.
  - rewrite int32_ok by (unfold ht; lia). reflexivity.
Qed.

Lemma raw_step T d k lo hi B P :
  let n := Z.of_nat (length d) in let minC := s32 (u32 (ep_contrast P * ep_group P)) in
  real_type T -> 0 <= B -> 4 * B < 2147483648 -> within B d -> fits P n -> (ep_left P = 0 \/ ep_right P = 0) ->
  step_up d k lo hi -> 1 <= k <= n - 3 -> 1 <= minC <= hi - lo ->
  raw T P d = [pt T k (hi - lo) (lo - hi)].
Proof.
  intros n minC HT HB H4 Hd Hf Hz Hs Hk Hc. pose proof Hf as (Hn4 & Hn & Hlc & Hrc & Hrn).
  destruct (raw_ok T P d B HT HB H4 Hd Hf) as (S1 & S2). fold minC in S2.
  (* all points are the one *)
  assert (ALL1 : forall v, In v (raw T P d) -> v = pt T k (hi - lo) (lo - hi)).
  { intros v Hv. rewrite Forall_forall in S2. destruct (S2 v Hv) as (i & Hi & _ & _ & Hr & Ev & _). fold n in Hi.
    assert (F : forall t, 0 <= t < n - 1 -> at_z (D1 d) t = if t =? k then hi - lo else 0).
    { intros t Ht. apply (step_D1 d k lo hi t Hs); fold n; lia. }
    rewrite F in Hr by lia. destruct (Z.eqb_spec i k) as [->|]; [|lia]. rewrite Ev. f_equal.
    - rewrite D2_at by (fold n; lia). rewrite !F by lia. rewrite Z.eqb_refl. destruct (Z.eqb_spec (k - 1) k); lia.
    - rewrite D2_at by (fold n; lia). rewrite !F by lia. replace (k + 1 - 1) with k by lia. rewrite Z.eqb_refl.
      destruct (Z.eqb_spec (k + 1) k); lia. }
  (* there is one *)
  assert (NE : raw T P d <> []).
  { unfold raw, getEdgePoints. fold n. fold minC.
    assert (U : u32 (n - 2) = n - 2) by (apply u32_small; lia). rewrite U.
    destruct (loop_rule (fun s : Z * list num => 1 <= fst s <= n - 2 /\ (k < fst s -> snd s <> []))
              (fun s => n - fst s) (fun s => fst s <? n - 2)
              (fun s => do e <- edge_at T d (D1 d) (D2 d) P minC (fst s) (snd s); Ok (u32 (fst s + 1), e)))
      with (fuel := fuel_of n) (s := (1, @nil num)) as (s' & E & (I1 & I2) & I3).
    - intros s (I1 & _). lia.
    - intros [i l] (I1 & I2) Hcd. cbn [fst snd] in *. apply Z.ltb_lt in Hcd.
      destruct (Z.eq_dec i k) as [->|Nk].
      + rewrite (edge_at_step T d k lo hi B P minC l) by (fold n; auto). cbn [bind]. eexists. split; [reflexivity|].
        cbn [fst snd]. rewrite u32_small by lia. split; [|lia]. split; [lia|]. intros _ Q. destruct l; discriminate.
      + destruct (edge_at_ok T d B P minC i l) as (o & Eo & Ho); fold n; auto; try lia.
        { unfold minC, s32; pose proof (u32_range (ep_contrast P * ep_group P)); destruct (_ <? _); unfold W32 in *; lia. }
        rewrite Eo. cbn [bind]. eexists. split; [reflexivity|]. cbn [fst snd].
        rewrite u32_small by lia. split; [|lia]. split; [lia|]. intros Q1 Q2. apply app_eq_nil in Q2. destruct Q2 as [Q2 _].
        apply I2; [lia|exact Q2].
    - cbn [fst snd]. split; [lia|]. lia.
    - cbn [fst]. unfold fuel_of. lia.
    - apply Z.ltb_ge in I3. rewrite E. cbn [bind]. specialize (I2 ltac:(lia)). destruct (snd s'); [congruence|].
      cbn [removeSimilarPoints]. discriminate. }
  destruct (raw T P d) as [|a [|b l]]; [congruence| |].
  - f_equal. apply ALL1. left. reflexivity.
  - exfalso. assert (a = b) as ->.
    { rewrite (ALL1 a) by (left; reflexivity). symmetry. apply ALL1. right. left. reflexivity. }
    inversion S1 as [|? ? _ Q]. inversion Q. lra.
Qed.

(** No step up, no point. *)
Lemma raw_none T d B P : real_type T -> 0 <= B -> 4 * B < 2147483648 -> within B d -> fits P (Z.of_nat (length d)) ->
  (forall i, 0 <= i < Z.of_nat (length d) - 1 -> at_z d (i + 1) <= at_z d i) -> raw T P d = [].
Proof.
  intros HT HB H4 Hd Hf Hdn. destruct (raw_ok T P d B HT HB H4 Hd Hf) as (_ & S2).
  destruct (raw T P d) as [|v l]; [reflexivity|]. exfalso. inversion_clear S2 as [|? ? Hv _].
  destruct Hv as (i & Hi & _ & _ & Hr & _). rewrite D1_at in Hr by lia. specialize (Hdn i ltac:(lia)). lia.
Qed.

(** The position of the step in the middle between the two pixels. *)
Lemma pt_half T k H : real_type T -> 0 <= k -> 2 * (k + 1) <= 2 ^ fst T -> k < 2 ^ 32 -> 1 <= H < 2 ^ 31 ->
  isN T (pt T k H (- H)) (IZR k + / 2)%R.
Proof.
  intros HT Hk Hp Hk2 HH. pose proof (real_bounds T HT) as (B1 & B2 & B3). unfold pt.
  destruct (Z.eqb_spec H (- H)); [lia|].
  assert (Q : isR (ddiv (dofZ H) (dofZ (H - - H))) (/ 2)).
  { assert (E : (IZR H / IZR (H - - H) = / 2)%R).
    { replace (H - - H) with (2 * H) by lia. rewrite mult_IZR. field. apply IZR_neq. lia. }
    assert (R : rnd (/ 2) = (/ 2)%R).
    { apply rnd_format. change (/ 2)%R with (bpow radix2 (-1)). apply generic_format_bpow. cbn. lia. }
    rewrite <- R, <- E. apply isR_div; try (apply isR_ofZ; lia).
    - apply IZR_neq. lia.
    - rewrite E, R. rewrite Rabs_pos_eq by lra. apply Rlt_trans with 1%R; [lra|].
      change 1%R with (bpow radix2 0). apply bpow_lt. lia. }
  assert (FM : forall p, Z.abs (2 * k + 1) <= 2 ^ p -> 2 <= p -> forall e, 40 <= e -> p < e ->
     generic_format radix2 (SpecFloat.fexp p e) (IZR k + / 2)%R).
  { intros p Hp' Hp2 e He Hpe. replace (IZR k + / 2)%R with (F2R (Float radix2 (2 * k + 1) (-1))).
    - apply formatT_F2R; try lia.
    - unfold F2R. cbn [Fnum Fexp]. change (bpow radix2 (-1)) with (/ 2)%R. rewrite plus_IZR, mult_IZR. lra. }
  assert (K0 : (0 <= IZR k <= bpow radix2 32)%R) by (apply IZR_bpow; lia).
  assert (K1 : (bpow radix2 33 = 2 * bpow radix2 32)%R).
  { change 33 with (1 + 32). rewrite bpow_plus. reflexivity. }
  assert (K2 : (1 <= bpow radix2 32)%R) by (change 1%R with (bpow radix2 0); apply bpow_le; lia).
  assert (A : isR (dadd (dofZ k) (ddiv (dofZ H) (dofZ (H - - H)))) (IZR k + / 2)%R).
  { assert (R : rnd (IZR k + / 2) = (IZR k + / 2)%R) by (apply rnd_format; apply FM; lia).
    rewrite <- R. apply isR_add; auto; [apply isR_ofZ; lia|]. rewrite R. eapply bound_big with (e := 33); [lia|].
    rewrite Rabs_pos_eq by lra. lra. }
  assert (R : rndN T (IZR k + / 2) = (IZR k + / 2)%R).
  { unfold rndN. apply rndT_format; try lia. apply FM; lia. }
  rewrite <- R. destruct T as [p e]. cbn [fst snd] in *. apply (isT_cast 53 1024); auto.
  unfold rndN in R. cbn [fst snd] in *. rewrite R. rewrite Rabs_pos_eq by lra.
  apply Rle_lt_trans with (bpow radix2 33); [lra|]. apply bpow_lt. lia.
Qed.

(** The region shows one step: all pixels up to [k] along the lines are [a], the others [b]. *)
Definition two_halves (P : EdgeParameter) (m : mem) (im : image) (x y w h k a b : Z) : Prop :=
  forall i j, 0 <= i < w -> 0 <= j < h ->
    pixel m im (x + i) (y + j) 0 =
    (let s := match ep_direction P with LEFT_TO_RIGHT | RIGHT_TO_LEFT => i | _ => j end in if s <=? k then a else b).

(** A point in the middle between the halves and in the middle of the group. *)
Definition on_step (P : EdgeParameter) (x y k r : Z) (p : point) : Prop :=
  match ep_direction P with
  | LEFT_TO_RIGHT | RIGHT_TO_LEFT =>
      value (fst p) = (IZR (x + k) + / 2)%R /\ value (snd p) = (IZR (y + r) + IZR (ep_group P - 1) / 2)%R
  | _ => value (fst p) = (IZR (x + r) + IZR (ep_group P - 1) / 2)%R /\ value (snd p) = (IZR (y + k) + / 2)%R
  end.

(** The kind of edge a step from [a] to [b] is. *)
Definition is_positive (P : EdgeParameter) (a b : Z) : bool := Bool.eqb (a <? b) (along_scan P).
Definition wanted (P : EdgeParameter) (positive : bool) : bool :=
  match ep_gradient P with POSITIVE => positive | NEGATIVE => negb positive | ANY => true end.

Lemma line_at P m im x y n r j : 0 <= j < n ->
  at_z (line P m im x y n r) j = zsum (ep_group P) (fun t => pix P m im x y r j t).
Proof. intros Hj. rewrite line_is. unfold prof. apply tab_at. exact Hj. Qed.

Lemma line_halves P m im x y w h k a b r j : two_halves P m im x y w h k a b -> 1 <= ep_group P -> 0 <= r ->
  r + ep_group P <= across P w h -> 0 <= j < along P w h ->
  at_z (line P m im x y (along P w h) r) j = ep_group P * (if j <=? k then a else b).
Proof.
  intros H Hg Hr Hx Hj. rewrite line_at by exact Hj. rewrite <- zsum_const by lia. apply zsum_ext. intros t Ht.
  unfold pix, horizontal, two_halves, along, across in *.
  destruct (ep_direction P); rewrite <- ?(Z.add_assoc y), <- ?(Z.add_assoc x); rewrite H by lia; reflexivity.
Qed.

Lemma rev_at l i : 0 <= i < Z.of_nat (length l) -> at_z (rev l) i = at_z l (Z.of_nat (length l) - 1 - i).
Proof. intros Hi. unfold at_z. rewrite rev_nth by lia. f_equal. lia. Qed.

Lemma exact_half T z : real_type T -> Z.abs z <= 2 ^ fst T -> rndN T (IZR z / 2) = (IZR z / 2)%R.
Proof.
  intros HT Hz. pose proof (real_bounds T HT) as (B1 & B2 & B3). unfold rndN. apply rndT_format; try lia.
  replace (IZR z / 2)%R with (F2R (Float radix2 z (-1))).
  - apply formatT_F2R; try lia.
  - unfold F2R. cbn [Fnum Fexp]. change (bpow radix2 (-1)) with (/ 2)%R. reflexivity.
Qed.

(** The step position placed in the image. *)
Lemma place_step T P x y w h k r (dir : bool) v : real_type T -> 0 <= x -> 0 <= y -> 4 <= along P w h ->
  2 * (x + w) <= 2 ^ fst T -> 2 * (y + h) <= 2 ^ fst T -> x + w <= 2 ^ 32 -> y + h <= 2 ^ 32 -> 1 <= ep_group P ->
  0 <= r -> r + ep_group P <= across P w h -> 1 <= k <= along P w h - 3 ->
  isN T v (IZR (if dir then k else along P w h - 2 - k) + / 2)%R ->
  on_step P x y k r (place T P x y (along P w h) r dir v).
Proof.
  intros HT Hx Hy Hn Px Py X32 Y32 Hg Hr Hr2 Hk Hv.
  assert (Ha : (1 <= IZR (if dir then k else along P w h - 2 - k) + / 2 <= IZR (along P w h - 2))%R).
  { assert (Q1 : (1 <= IZR (if dir then k else along P w h - 2 - k))%R) by (apply IZR_le; destruct dir; lia).
    assert (Q2 : (IZR (if dir then k else along P w h - 2 - k) + 1 <= IZR (along P w h - 2))%R)
      by (rewrite <- plus_IZR; apply IZR_le; destruct dir; lia). lra. }
  assert (MID : forall y0 ext, 0 <= y0 -> r + ep_group P <= ext -> 2 * (y0 + ext) <= 2 ^ fst T -> y0 + ext <= 2 ^ 32 ->
     val (rounded T (2 * (y0 + r) + (ep_group P - 1)) (-1)) = (IZR (y0 + r) + IZR (ep_group P - 1) / 2)%R).
  { intros y0 ext H0 H1 H2 H3. destruct (middle_value T y0 r (ep_group P) ext) as (c & M1 & M2 & _); auto; try lia.
    rewrite (isN_val T _ _ M1), M2.
    replace (IZR (y0 + r) + IZR (ep_group P - 1) / 2)%R with (IZR (2 * (y0 + r) + (ep_group P - 1)) / 2)%R
      by (rewrite plus_IZR, mult_IZR; lra).
    apply exact_half; auto. lia. }
  assert (ALONG : forall x0 n, 0 <= x0 -> n = along P w h -> 2 * (x0 + n) <= 2 ^ fst T -> x0 + n <= 2 ^ 32 ->
     val (if dir then tadd T v (rounded T x0 0) else tsub T (rounded T (x0 + n - 1) 0) v) = (IZR (x0 + k) + / 2)%R /\
     val (if dir then tadd T (rounded T x0 0) v else tsub T (rounded T (x0 + n - 1) 0) v) = (IZR (x0 + k) + / 2)%R).
  { intros x0 n H0 -> H2 H3. set (n := along P w h) in *.
    assert (E0 : (IZR (x0 + k) + / 2 = IZR (2 * (x0 + k) + 1) / 2)%R) by (rewrite (plus_IZR (2 * _)), mult_IZR; lra).
    destruct dir.
    - destruct (place_up T x0 n v _ HT H0 Hn ltac:(lia) ltac:(lia) Hv Ha) as (c & A1 & A1' & A2 & _).
      rewrite (isN_val T _ _ A1), (isN_val T _ _ A1'), A2.
      replace (IZR k + / 2 + IZR x0)%R with (IZR (x0 + k) + / 2)%R by (rewrite plus_IZR; lra).
      rewrite E0. rewrite exact_half by (auto; lia). auto.
    - destruct (place_down T x0 n v _ HT H0 Hn ltac:(lia) ltac:(lia) Hv Ha) as (c & A1 & A2 & _).
      rewrite (isN_val T _ _ A1), A2.
      replace (IZR (x0 + n - 1) - (IZR (n - 2 - k) + / 2))%R with (IZR (x0 + k) + / 2)%R.
      2:{ replace (x0 + n - 1) with (x0 + k + 1 + (n - 2 - k)) by lia. rewrite !plus_IZR. lra. }
      rewrite E0. rewrite exact_half by (auto; lia). auto. }
  unfold on_step, place, along, across in *. unfold value. change (SF2R radix2) with val.
  destruct (ep_direction P); cbn [fst snd].
  - split; [apply (ALONG x w); auto|apply (MID y h); auto].
  - split; [apply (ALONG x w); auto|apply (MID y h); auto].
  - split; [apply (MID x w); auto|apply (ALONG y h); auto].
  - split; [apply (MID x w); auto|apply (ALONG y h); auto].
Qed.

Lemma flat_map_single {A B} (f : A -> list B) (g : A -> B) l : (forall a, In a l -> f a = [g a]) -> flat_map f l = map g l.
Proof.
  induction l as [|a l IH]; intros H; [reflexivity|]. cbn [flat_map map]. rewrite H by (left; reflexivity).
  rewrite IH; [reflexivity|]. intros b Hb. apply H. right. exact Hb.
Qed.
Lemma flat_map_none {A B} (f : A -> list B) l : (forall a, In a l -> f a = []) -> flat_map f l = [].
Proof.
  induction l as [|a l IH]; intros H; [reflexivity|]. cbn [flat_map]. rewrite H by (left; reflexivity).
  apply IH. intros b Hb. apply H. right. exact Hb.
Qed.

(** A step is found exactly once on every line, exactly in the middle, and listed with the edges of
    its kind; nothing else is found. *)
Theorem C91_step : forall T m im x y w h P k a b, real_type T -> area m im x y w h -> icc im = 1 -> bytes m im ->
  4 <= along P w h -> safe_parameters P (along P w h) (across P w h) -> (ep_left P = 0 \/ ep_right P = 0) ->
  2 * (x + w) <= 2 ^ fst T -> 2 * (y + h) <= 2 ^ fst T ->
  two_halves P m im x y w h k a b -> 1 <= k <= along P w h - 3 -> ep_contrast P <= Z.abs (a - b) ->
  exists points, find T m im x y w h P = Ok (if is_positive P a b then (points, []) else ([], points)) /\
    if wanted P (is_positive P a b) then Forall2 (on_step P x y k) (line_starts P (across P w h)) points else points = [].
Proof.
  intros T m im x y w h P k a b HT Ha Hc Hb Hn Hs Hz Px Py H2 Hk Hab.
  rewrite find_lines by assumption.
  pose proof Ha as (Hw & [R1 R2 R3 R4 R5 R6]). pose proof (wf_bounds _ _ Hw) as (B1 & B2 & _). unfold W32 in B1, B2.
  assert (N3 : along P w h < 2 ^ 32) by (unfold along; destruct (ep_direction P); lia).
  pose proof Hs as [S1 S2 S3 S4 S5 S6].
  set (n := along P w h) in *. set (dir := a <? b). set (g := ep_group P) in *.
  assert (AB : 0 <= a <= 255 /\ 0 <= b <= 255).
  { assert (A0 : forall s, 0 <= s < n -> 0 <= (if s <=? k then a else b) <= 255).
    { intros s Hs0. unfold two_halves in H2. unfold n, along in Hs0.
      destruct (ep_direction P).
      1,2: specialize (H2 s 0 ltac:(lia) ltac:(lia)); cbv zeta in H2; rewrite <- H2; pose proof (Hb (x + s) (y + 0) 0 ltac:(lia) ltac:(lia) ltac:(lia)); lia.
      1,2: specialize (H2 0 s ltac:(lia) ltac:(lia)); cbv zeta in H2; rewrite <- H2; pose proof (Hb (x + 0) (y + s) 0 ltac:(lia) ltac:(lia) ltac:(lia)); lia. }
    pose proof (A0 k ltac:(lia)) as A1. pose proof (A0 (k + 1) ltac:(lia)) as A2.
    destruct (Z.leb_spec k k), (Z.leb_spec (k + 1) k); lia. }
  set (lo := g * Z.min a b). set (hi := g * Z.max a b).
  set (kk := if dir then k else n - 2 - k).
  assert (HL : hi - lo = g * Z.abs (a - b)).
  { unfold hi, lo. rewrite <- Z.mul_sub_distr_l. f_equal. lia. }
  assert (HC : s32 (u32 (ep_contrast P * ep_group P)) = ep_contrast P * g) by (apply contrast_product; lia).
  assert (HC2 : 1 <= ep_contrast P * g <= hi - lo).
  { rewrite HL, (Z.mul_comm g). split; [apply Z.le_trans with (1 * 1); [lia|]; apply Z.mul_le_mono_nonneg; lia|].
    apply Z.mul_le_mono_nonneg_r; lia. }
  assert (HH : 1 <= hi - lo < 2 ^ 31).
  { split; [lia|]. rewrite HL. apply Z.le_lt_trans with (g * 255); [apply Z.mul_le_mono_nonneg_l; lia|lia]. }
  (* the two views of a line *)
  assert (FACT : forall r, In r (line_starts P (across P w h)) ->
     raw T P (seen dir (line P m im x y n r)) = [pt T kk (hi - lo) (lo - hi)] /\
     raw T P (seen (negb dir) (line P m im x y n r)) = [] /\ 0 <= r /\ r + g <= across P w h).
  { intros r Hr. destruct (In_starts P _ r ltac:(lia) S1 Hr) as (Hr0 & Hr1).
    assert (Ll : Z.of_nat (length (line P m im x y n r)) = n) by (rewrite line_length; lia).
    assert (Wl : within (255 * g) (line P m im x y n r)) by (apply line_within; auto; lia).
    assert (V : forall j, 0 <= j < n -> at_z (line P m im x y n r) j = g * (if j <=? k then a else b)).
    { intros j Hj. apply (line_halves P m im x y w h k a b r j); auto; lia. }
    assert (FIT : forall d, fits P (Z.of_nat (length (seen d (line P m im x y n r))))).
    { intros d. rewrite seen_length, Ll. unfold fits, W32. lia. }
    assert (SV : forall d j, 0 <= j < n -> at_z (seen d (line P m im x y n r)) j
                = g * (if d then if j <=? k then a else b else if n - 2 - k <? j then a else b)).
    { intros d j Hj. destruct d; cbn [seen]; [apply V; exact Hj|]. rewrite rev_at by lia. rewrite Ll, V by lia.
      f_equal. destruct (Z.leb_spec (n - 1 - j) k), (Z.ltb_spec (n - 2 - k) j); lia. }
    split; [|split; [|split; [exact Hr0|exact Hr1]]].
    - apply (raw_step T _ kk lo hi (255 * g) P); auto; try lia.
      + apply seen_within. exact Wl.
      + intros j Hj. rewrite seen_length, Ll in Hj. rewrite SV by exact Hj. unfold lo, hi, kk, dir in *.
        destruct (Z.ltb_spec a b).
        * rewrite Z.min_l, Z.max_r by lia. destruct (j <=? k); reflexivity.
        * rewrite Z.min_r, Z.max_l by lia. destruct (Z.ltb_spec (n - 2 - k) j), (Z.leb_spec j (n - 2 - k)); lia.
      + rewrite seen_length, Ll. unfold kk. destruct dir; lia.
    - apply (raw_none T _ (255 * g) P); auto; try lia.
      + apply seen_within. exact Wl.
      + intros i Hi. rewrite seen_length, Ll in Hi. rewrite !SV by lia. apply Z.mul_le_mono_nonneg_l; [lia|].
        unfold dir in *. destruct (Z.ltb_spec a b); cbn [negb].
        * destruct (Z.ltb_spec (n - 2 - k) (i + 1)), (Z.ltb_spec (n - 2 - k) i); lia.
        * destruct (Z.leb_spec (i + 1) k), (Z.leb_spec i k); lia. }
  set (q := fun r => place T P x y n r dir (pt T kk (hi - lo) (lo - hi))).
  assert (KV : isN T (pt T kk (hi - lo) (lo - hi)) (IZR kk + / 2)%R).
  { replace (lo - hi) with (- (hi - lo)) by lia. apply pt_half; auto; unfold kk.
    - destruct dir; lia.
    - assert (n <= x + w \/ n <= y + h) by (unfold n, along; destruct (ep_direction P); lia). destruct dir; lia.
    - destruct dir; lia. }
  assert (QS : Forall2 (on_step P x y k) (line_starts P (across P w h)) (map q (line_starts P (across P w h)))).
  { assert (G : forall l, (forall r, In r l -> In r (line_starts P (across P w h))) -> Forall2 (on_step P x y k) l (map q l)).
    { induction l as [|r l IH]; intros Hl; [constructor|]. cbn [map]. constructor.
      - destruct (FACT r (Hl r (or_introl eq_refl))) as (_ & _ & F1 & F2). unfold q.
        apply (place_step T P x y w h k r dir); auto; try lia. 
      - apply IH. intros s Hs0. apply Hl. right. exact Hs0. }
    apply G. auto. }
  assert (POS : forall E, dir = along_scan P -> E = raw T P ->
     flat_map (positive_on T P E m im x y n) (line_starts P (across P w h))
       = (if match ep_gradient P with NEGATIVE => false | _ => true end then map q (line_starts P (across P w h)) else []) /\
     flat_map (negative_on T P E m im x y n) (line_starts P (across P w h)) = []).
  { intros E Ed ->. split.
    - destruct (ep_gradient P) eqn:Eg.
      2:{ apply flat_map_none. intros r Hr. unfold positive_on. rewrite Eg. reflexivity. }
      all: apply flat_map_single; intros r Hr; destruct (FACT r Hr) as (F1 & _); unfold positive_on; rewrite <- Ed, Eg, F1;
        destruct (ep_edge P); reflexivity.
    - apply flat_map_none. intros r Hr. destruct (FACT r Hr) as (_ & F2 & _). unfold negative_on. rewrite <- Ed, F2.
      destruct (ep_gradient P), (ep_edge P); reflexivity. }
  assert (NEG : forall E, dir = negb (along_scan P) -> E = raw T P ->
     flat_map (negative_on T P E m im x y n) (line_starts P (across P w h))
       = (if match ep_gradient P with POSITIVE => false | _ => true end then map q (line_starts P (across P w h)) else []) /\
     flat_map (positive_on T P E m im x y n) (line_starts P (across P w h)) = []).
  { intros E Ed ->. split.
    - destruct (ep_gradient P) eqn:Eg.
      1:{ apply flat_map_none. intros r Hr. unfold negative_on. rewrite Eg. reflexivity. }
      all: apply flat_map_single; intros r Hr; destruct (FACT r Hr) as (F1 & _); unfold negative_on; rewrite <- Ed, Eg, F1;
        destruct (ep_edge P); reflexivity.
    - apply flat_map_none. intros r Hr. destruct (FACT r Hr) as (_ & F2 & _). unfold positive_on.
      replace (along_scan P) with (negb dir) by (rewrite Ed; apply negb_involutive). rewrite F2.
      destruct (ep_gradient P), (ep_edge P); reflexivity. }
  unfold is_positive, wanted. fold dir.
  destruct (Bool.eqb dir (along_scan P)) eqn:Ed.
  - apply eqb_prop in Ed. destruct (POS (raw T P) Ed eq_refl) as (P1 & P2).
    eexists. split; [apply pair_ok; [exact P1|exact P2]|]. destruct (ep_gradient P); [exact QS|reflexivity|exact QS].
  - apply eqb_false_iff in Ed. assert (Ed' : dir = negb (along_scan P)) by (clear -Ed; destruct dir, (along_scan P); try reflexivity; exfalso; apply Ed; reflexivity).
    destruct (NEG (raw T P) Ed' eq_refl) as (P1 & P2).
    eexists. split; [apply pair_ok; [exact P2|exact P1]|]. cbn [negb]. destruct (ep_gradient P); [reflexivity|exact QS|exact QS].
Qed.

(** A dark left and a bright right part, scanned in both directions. *)
Lemma step_mem_halves P : (ep_direction P = LEFT_TO_RIGHT \/ ep_direction P = RIGHT_TO_LEFT) ->
  two_halves P step_mem (img 1 6 3 1 8) 0 0 6 3 2 10 90.
Proof.
  intros HP i j Hi Hj. unfold pixel, get, step_mem, px, ibase. cbn [img idata irs icc fst snd bget].
  assert (E : (0 + (0 + j) * 8 + (0 + i) * 1 + 0) mod 8 = i).
  { symmetry. apply Z.mod_unique with (q := j); [left|]; lia. }
  rewrite E. destruct HP as [-> | ->]; cbv zeta; destruct (Z.ltb_spec i 3), (Z.leb_spec i 2); lia.
Qed.
Example C91_case : let P := mkEdgeParameter RIGHT_TO_LEFT NEGATIVE FIRST 2 1 0 0 80 in
  two_halves P step_mem (img 1 6 3 1 8) 0 0 6 3 2 10 90 /\ safe_parameters P (along P 6 3) (across P 6 3) /\
  ep_contrast P <= Z.abs (10 - 90).
Proof. split; [apply step_mem_halves; right; reflexivity|]. split; [constructor; cbn; lia|cbn; lia]. Qed.
Example C90_case : area emem (img 1 9 8 1 10) 1 0 7 6 /\ 1 + 7 <= 2 ^ fst FLOAT.
Proof. split; [solve_area|cbn; lia]. Qed.

Print Assumptions C68_find.
Print Assumptions C68_local.
Print Assumptions C68_short.
Print Assumptions C68_rejects.
Print Assumptions C69_group_refuted.
Print Assumptions C69_contrast_refuted.
Print Assumptions C90_points.
Print Assumptions C91_step.
