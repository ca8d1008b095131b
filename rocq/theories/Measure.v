(** Model of Parameter and of the cached measurements of BlobInfo, src/blob_detection.h and
    src/blob_detection.cpp, and of kiss_fft_next_fast_size, src/thirdparty/kissfft/kiss_fft.c.
    Definitions only. *)
From Coq Require Import ZArith List Bool.
From Verif Require Import Base Image ImgFun Double Blob.
Import ListNotations.
Open Scope Z_scope.

(** ** Parameter *)

(** blob_detection.h:28-41 *)
Record parameter (T : Type) := mkParameter {
  minimum : T; checkMinimum : bool; maximum : T; checkMaximum : bool }.
Arguments mkParameter {T}. Arguments minimum {T}. Arguments checkMinimum {T}.
Arguments maximum {T}. Arguments checkMaximum {T}.

Section PARAMETER.
Context {T : Type} (zero : T) (lt : T -> T -> bool).
Definition initial : parameter T := mkParameter zero false zero false.
(** blob_detection.h:43-48: true = verify() does not throw *)
Definition accepts (p : parameter T) : bool :=
  negb (checkMaximum p && checkMinimum p && lt (maximum p) (minimum p)).
(** blob_detection.h:56-60 *)
Definition setMinimum (v : T) (p : parameter T) : parameter T :=
  mkParameter v true (maximum p) (checkMaximum p).
(** blob_detection.h:62-66 *)
Definition setMaximum (v : T) (p : parameter T) : parameter T :=
  mkParameter (minimum p) (checkMinimum p) v true.
(** blob_detection.h:50-54 *)
Definition setBoth (a b : T) (p : parameter T) : parameter T := setMaximum b (setMinimum a p).
(** blob_detection.h:68-71 *)
Definition reset (p : parameter T) : parameter T := initial.

(** A client's calls. *)
Inductive pcall := CSet (a b : T) | CSetMinimum (v : T) | CSetMaximum (v : T) | CReset.
Definition pstep (p : parameter T) (c : pcall) : parameter T :=
  match c with
  | CSet a b => setBoth a b p
  | CSetMinimum v => setMinimum v p
  | CSetMaximum v => setMaximum v p
  | CReset => reset p
  end.
Definition pcalls (h : list pcall) : parameter T := fold_left pstep h initial.

(** blob_detection.cpp:431-478: whether a value is kept by a filter *)
Definition keeps (p : parameter T) (v : T) : bool :=
  negb ((checkMaximum p && lt (maximum p) v) || (checkMinimum p && lt v (minimum p))).
End PARAMETER.

(** ** BlobInfo *)

(** blob_detection.h:118-143: a value that was never written is indeterminate ([None]). *)
Record area4 := mkArea { a_left : Z; a_right : Z; a_top : Z; a_bottom : Z }.
Record cache (T : Type) := mkCache { c_value : option T; c_found : bool }.
Arguments mkCache {T}. Arguments c_value {T}. Arguments c_found {T}.

(** blob_detection.h:303-318.  Area and Point2d have initial values 0, the numbers have none. *)
Record binfo := mkBinfo {
  bi_blob : blob;
  bi_area : cache area4; bi_center : cache (double * double);
  bi_circularity : cache double; bi_elongation : cache double;
  bi_height : cache Z; bi_length : cache double; bi_width : cache Z }.
Definition new_info (b : blob) : binfo :=
  mkBinfo b (mkCache (Some (mkArea 0 0 0 0)) false) (mkCache (Some (dofZ 0, dofZ 0)) false)
    (mkCache None false) (mkCache None false) (mkCache None false) (mkCache None false) (mkCache None false).

Definition none {A} (l : list A) : bool := match l with [] => true | _ => false end.

(** blob_detection.cpp:78-88 *)
Definition getArea (i : binfo) : res mem binfo :=
  let c := bcontour (bi_blob i) in
  if negb (c_found (bi_area i)) && negb (none c) && negb (none c) then
    Ok (mkBinfo (bi_blob i)
      (mkCache (Some (mkArea (list_min (map fst c)) (u32 (list_max (map fst c) + 1))
                             (list_min (map snd c)) (u32 (list_max (map snd c) + 1)))) true)
      (bi_center i) (bi_circularity i) (bi_elongation i) (bi_height i) (bi_length i) (bi_width i))
  else Ok i.

(** blob_detection.cpp:90-98 *)
Definition getCenter (i : binfo) : res mem binfo :=
  let p := bpoints (bi_blob i) in
  if negb (c_found (bi_center i)) && negb (none p) && negb (none p) then
    Ok (mkBinfo (bi_blob i) (bi_area i) (mkCache (Some (center (bi_blob i))) true)
      (bi_circularity i) (bi_elongation i) (bi_height i) (bi_length i) (bi_width i))
  else Ok i.

(** blob_detection.cpp:100-120, with the cached centre *)
Definition circularity_from (lm : libm) (c : double * double) (b : blob) : double :=
  let radius := dsqrt (ddiv (dofZ (blob_size b)) (l_pi lm)) in
  let far p :=
    let dx := dsub (dofZ (fst p)) (fst c) in
    let dy := dsub (dofZ (snd p)) (snd c) in
    dabs (dsub (dsqrt (dadd (dmul dx dx) (dmul dy dy))) radius) in
  let difference := fold_left (fun s p => dadd s (far p)) (bcontour b) (dofZ 0) in
  dsub (dofZ 1) (ddiv difference (dmul (dofZ (Z.of_nat (length (bcontour b)))) radius)).
Definition getCircularity (lm : libm) (i : binfo) : res mem binfo :=
  if negb (c_found (bi_circularity i)) && negb (none (bcontour (bi_blob i))) then
    do i <- getCenter i;
    match c_value (bi_center i) with
    | None => UB
    | Some c =>
        Ok (mkBinfo (bi_blob i) (bi_area i) (bi_center i)
          (mkCache (Some (circularity_from lm c (bi_blob i))) true)
          (bi_elongation i) (bi_height i) (bi_length i) (bi_width i))
    end
  else Ok i.

(** blob_detection.cpp:122-158; the computation is [blob_elongation] *)
Definition getElongation (lm : libm) (i : binfo) : res mem binfo :=
  if negb (c_found (bi_elongation i)) && negb (none (bcontour (bi_blob i))) && negb (none (bcontour (bi_blob i))) then
    do v <- blob_elongation lm (bi_blob i);
    Ok (mkBinfo (bi_blob i) (bi_area i) (bi_center i) (bi_circularity i)
      (mkCache (Some v) true) (bi_height i) (bi_length i) (bi_width i))
  else Ok i.

(** blob_detection.cpp:160-167 *)
Definition getHeight (i : binfo) : res mem binfo :=
  if negb (c_found (bi_height i)) && negb (none (bcontour (bi_blob i))) then
    Ok (mkBinfo (bi_blob i) (bi_area i) (bi_center i) (bi_circularity i) (bi_elongation i)
      (mkCache (Some (u32 (list_max (map snd (bcontour (bi_blob i))) - list_min (map snd (bcontour (bi_blob i))) + 1))) true)
      (bi_length i) (bi_width i))
  else Ok i.

(** blob_detection.cpp:169-178; the computation is [blob_length] *)
Definition getLength (i : binfo) : res mem binfo :=
  if negb (c_found (bi_length i)) && negb (none (bcontour (bi_blob i))) && negb (none (bcontour (bi_blob i))) then
    do v <- blob_length (bi_blob i);
    Ok (mkBinfo (bi_blob i) (bi_area i) (bi_center i) (bi_circularity i) (bi_elongation i) (bi_height i)
      (mkCache (Some v) true) (bi_width i))
  else Ok i.

(** blob_detection.cpp:180-187 *)
Definition getWidth (i : binfo) : res mem binfo :=
  if negb (c_found (bi_width i)) && negb (none (bcontour (bi_blob i))) then
    Ok (mkBinfo (bi_blob i) (bi_area i) (bi_center i) (bi_circularity i) (bi_elongation i) (bi_height i) (bi_length i)
      (mkCache (Some (u32 (list_max (map fst (bcontour (bi_blob i))) - list_min (map fst (bcontour (bi_blob i))) + 1))) true))
  else Ok i.

(** blob_detection.h:194-290: the getters; [lazy] is the form that is not const.  Reading a
    number that was never written is undefined. *)
Inductive query := QArea | QCenter | QCircularity | QElongation | QHeight | QLength | QWidth.
Inductive answer := AArea (a : area4) | APoint (p : double * double) | ADouble (d : double) | AInt (z : Z).
Definition fetch (lm : libm) (q : query) (i : binfo) : res mem binfo :=
  match q with
  | QArea => getArea i
  | QCenter => getCenter i
  | QCircularity => getCircularity lm i
  | QElongation => getElongation lm i
  | QHeight => getHeight i
  | QLength => getLength i
  | QWidth => getWidth i
  end.
Definition stored (q : query) (i : binfo) : option answer :=
  match q with
  | QArea => option_map AArea (c_value (bi_area i))
  | QCenter => option_map APoint (c_value (bi_center i))
  | QCircularity => option_map ADouble (c_value (bi_circularity i))
  | QElongation => option_map ADouble (c_value (bi_elongation i))
  | QHeight => option_map AInt (c_value (bi_height i))
  | QLength => option_map ADouble (c_value (bi_length i))
  | QWidth => option_map AInt (c_value (bi_width i))
  end.
Definition ask (lm : libm) (lazy : bool) (q : query) (i : binfo) : res mem (answer * binfo) :=
  do i <- if lazy then fetch lm q i else Ok i;
  match stored q i with None => UB | Some a => Ok (a, i) end.
Fixpoint asks (lm : libm) (h : list (bool * query)) (i : binfo) : res mem binfo :=
  match h with
  | [] => Ok i
  | (lazy, q) :: h' => do r <- ask lm lazy q i; asks lm h' (snd r)
  end.

(** blob_detection.h:299-302 *)
Definition isSolid (b : blob) : bool := Nat.eqb (length (bcontour b)) (length (bedges b)).

(** ** kiss_fft_next_fast_size *)

(** kiss_fft.c:398-400: while ( (m%q) == 0 ) m/=q; [None] when the loop has not ended after [fuel] rounds *)
Fixpoint divide_out (fuel : nat) (q m : Z) : option Z :=
  match fuel with
  | O => None
  | S f => if Z.rem m q =? 0 then divide_out f q (Z.quot m q) else Some m
  end.
(** kiss_fft.c:397-400 *)
Definition leftover (fuel : nat) (n : Z) : option Z :=
  match divide_out fuel 2 n with
  | None => None
  | Some m => match divide_out fuel 3 m with None => None | Some m => divide_out fuel 5 m end
  end.
(** kiss_fft.c:394-406; n++ overflows at INT_MAX *)
Inductive fast := NotYet | Overflow | Size (n : Z).
Fixpoint next_fast_size (rounds fuel : nat) (n : Z) : fast :=
  match rounds with
  | O => NotYet
  | S r =>
      match leftover fuel n with
      | None => NotYet
      | Some m =>
          if m <=? 1 then Size n
          else if n =? 2147483647 then Overflow
          else next_fast_size r fuel (n + 1)
      end
  end.
