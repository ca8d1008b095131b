(** Model of edge detection, src/edge_detection.cpp and edge_detection.h.
    Definitions only. *)
From Coq Require Import ZArith List Bool.
From Verif Require Import Base Image ImgFun Double Blob.
From Coq Require Import Floats.SpecFloat.
Import ListNotations.
Open Scope Z_scope.

(** The template parameter _Type, float or double: precision and exponent bound. *)
Definition ftype : Type := (Z * Z)%type.
Definition FLOAT : ftype := (24, 128).
Definition DOUBLE : ftype := (53, 1024).
Definition num : Type := spec_float.
Definition tadd (T : ftype) : num -> num -> num := SFadd (fst T) (snd T).
Definition tsub (T : ftype) : num -> num -> num := SFsub (fst T) (snd T).
Definition tofZ (T : ftype) (z : Z) : num := binary_normalize (fst T) (snd T) z 0 false.
(** the literal 0.5f as a value of type T *)
Definition thalf (T : ftype) : num := binary_normalize (fst T) (snd T) 1 (-1) false.
(** conversion between the two types *)
Definition tcast (T : ftype) (x : num) : num :=
  match x with
  | S754_finite s m e => binary_normalize (fst T) (snd T) (if s then Zneg m else Zpos m) e s
  | _ => x
  end.

(** edge_detection.h:29-51 *)
Inductive direction := LEFT_TO_RIGHT | RIGHT_TO_LEFT | TOP_TO_BOTTOM | BOTTOM_TO_TOP.
Inductive gradient := POSITIVE | NEGATIVE | ANY.
Inductive edge_type := FIRST | LAST | ALL.

(** edge_detection.h:53-77 *)
Record EdgeParameter := mkEdgeParameter {
  ep_direction : direction;
  ep_gradient : gradient;
  ep_edge : edge_type;
  ep_group : Z;
  ep_skip : Z;
  ep_left : Z;
  ep_right : Z;
  ep_contrast : Z
}.

(** edge_detection.cpp:392-405, verify: true = does not throw *)
Definition verify (P : EdgeParameter) : bool :=
  negb (ep_group P =? 0) && negb (ep_skip P =? 0) && negb (ep_contrast P =? 0).

(** edge_detection.cpp:29-45 *)
Definition leaveFirstElement {A} (l : list A) : list A :=
  match l with a :: _ :: _ => [a] | _ => l end.
Fixpoint leaveLastElement {A} (l : list A) : list A :=
  match l with _ :: (_ :: _) as l' => leaveLastElement l' | _ => l end.

(** The elements of a vector from iterator [a] to iterator [b] *)
Definition range (l : list Z) (a b : Z) : res mem (list Z) :=
  if (0 <=? a) && (a <=? b) && (b <=? Z.of_nat (length l))
  then Ok (firstn (Z.to_nat (b - a)) (skipn (Z.to_nat a) l)) else UB.

(** *std::max_element, *std::min_element; the end iterator of an empty range is dereferenced *)
Definition max_element (l : list Z) : res mem Z :=
  match l with [] => UB | a :: l' => Ok (fold_left Z.max l' a) end.
Definition min_element (l : list Z) : res mem Z :=
  match l with [] => UB | a :: l' => Ok (fold_left Z.min l' a) end.

(** std::accumulate( ..., 0.0f ): every element is converted to float and added in float *)
Definition accumulate (l : list Z) : num :=
  fold_left (fun acc v => tadd FLOAT acc (tofZ FLOAT v)) l (S754_zero false).

(** edge_detection.cpp:79-119, findPoint.  [Some e]: e was appended and true returned.  The
    iterator sums (begin() + n + 1) are not uint32_t; the ones computed in uint32_t wrap. *)
Definition findPoint (T : ftype) (data second : list Z) (left right minimumContrast : Z)
    (checkContrast : bool) (leftCheck rightCheck position size : Z) : res mem (option num) :=
  do r <- range data left (right + 1);
  do maxIntensity <- max_element r;
  do minIntensity <- min_element r;
  do d <- int32 (maxIntensity - minIntensity);
  if d <? minimumContrast then Ok None
  else
    do checkContrast <-
      (if checkContrast && (leftCheck <=? position) && (u32 (rightCheck + position) <? size) then
         let whiteContrastStart := u32 (position + 1) in
         let blackContrastStart := u32 (position - leftCheck) in
         let whiteContrastEnd := u32 (position + rightCheck) in
         do b <- range data blackContrastStart (position + 1);
         do w <- range data whiteContrastStart (whiteContrastEnd + 1);
         let sumBlack := ddiv (tcast DOUBLE (accumulate b)) (dofZ (u32 (position - blackContrastStart + 1))) in
         let sumWhite := ddiv (tcast DOUBLE (accumulate w)) (dofZ (u32 (whiteContrastEnd - whiteContrastStart + 1))) in
         Ok (if dle (dofZ minimumContrast) (dsub sumWhite sumBlack) then false else checkContrast)
       else Ok checkContrast);
    if checkContrast then Ok None
    else
      do a <- vnth second position;
      do b <- vnth second (u32 (position + 1));
      if a =? b then Ok (Some (tadd T (tofZ T position) (thalf T)))
      else
        do d <- int32 (a - b);
        Ok (Some (tcast T (dadd (dofZ position) (ddiv (dofZ a) (dofZ d))))).

(** edge_detection.cpp:151-168: the loop to the left from [j].  The pairs of flag and position
    are options. *)
Fixpoint left_scan (first : list Z) (half mn mx : Z) (j : nat) (normal : option Z)
    : res mem (option Z * option Z) :=
  do v <- vnth first (Z.of_nat j);
  let normal := match normal with
                | None => if v <? half then Some (Z.of_nat j) else None
                | Some _ => normal
                end in
  if v <? mn then Ok (normal, Some (Z.of_nat j))
  else if mx <? v then Ok (normal, None)
  else match j with O => Ok (normal, None) | S j' => left_scan first half mn mx j' normal end.

(** edge_detection.cpp:180-194: the loop to the right from [j], at most [k] steps *)
Fixpoint right_scan (first : list Z) (half mn mx : Z) (k : nat) (j : Z) (normal : option Z)
    : res mem (option Z * option Z) :=
  match k with
  | O => Ok (normal, None)
  | S k' =>
      do v <- vnth first j;
      let normal := match normal with
                    | None => if v <? half then Some j else None
                    | Some _ => normal
                    end in
      if v <? mn then Ok (normal, Some j)
      else if mx <? v then Ok (normal, None)
      else right_scan first half mn mx k' (j + 1) normal
  end.

(** edge_detection.cpp:131-206: one iteration of the loop over [i] *)
Definition edge_at (T : ftype) (data first second : list Z) (P : EdgeParameter)
    (minimumContrast : Z) (i : Z) (edge : list num) : res mem (list num) :=
  let n := Z.of_nat (length data) in
  let check := (0 <? ep_left P) && (0 <? ep_right P) in
  do s <- vnth second i;
  if s <? 0 then Ok edge
  else
  do s1 <- vnth second (u32 (i + 1));
  if 0 <? s1 then Ok edge
  else
  do f <- vnth first i;
  do f1 <- vnth first (u32 (i + 1));
  let maxGradient := if f1 <? f then f else f1 in
  if maxGradient <=? 0 then Ok edge
  else
  let minGradientValue := if maxGradient <? 3 then 1 else maxGradient / 3 in
  let halfGradient := if maxGradient <? 2 then 1 else maxGradient / 2 in
  do l <- left_scan first halfGradient minGradientValue maxGradient (Z.to_nat i) None;
  match l with
  | (None, None) => Ok edge
  | (normalLeft, minimumLeft) =>
      do r <- right_scan first halfGradient minGradientValue maxGradient
                (Z.to_nat (u32 (n - 1) - u32 (i + 1))) (u32 (i + 1)) None;
      let (normalRight, minimumRight) := r in
      do p <- match normalLeft, normalRight with
              | Some a, Some b =>
                  findPoint T data second a b minimumContrast check (ep_left P) (ep_right P) i n
              | _, _ => Ok None
              end;
      match p with
      | Some e => Ok (edge ++ [e])
      | None =>
          do p <- match minimumLeft, minimumRight with
                  | Some a, Some b =>
                      findPoint T data second a b minimumContrast check (ep_left P) (ep_right P) i n
                  | _, _ => Ok None
                  end;
          Ok (match p with Some e => edge ++ [e] | None => edge end)
      end
  end.

(** edge_detection.cpp:121-208, getEdgePoints; [edge] is empty at the call *)
Definition getEdgePoints (T : ftype) (data first second : list Z) (P : EdgeParameter)
    : res mem (list num) :=
  let n := Z.of_nat (length data) in
  let minimumContrast := s32 (u32 (ep_contrast P * ep_group P)) in
  do r <- loop (fuel_of n) (fun s => fst s <? u32 (n - 2))
            (fun s => do e <- edge_at T data first second P minimumContrast (fst s) (snd s);
                      Ok (u32 (fst s + 1), e))
            (1, []);
  Ok (snd r).

(** edge_detection.cpp:210-221, removeSimilarPoints: the loop compares each element with the last
    one kept *)
Fixpoint drop_similar (T : ftype) (prev : num) (l : list num) : list num :=
  match l with
  | [] => []
  | e :: l' => if dlt (tcast DOUBLE (tsub T e prev)) (dofZ 1) then drop_similar T prev l'
               else e :: drop_similar T e l'
  end.
Definition removeSimilarPoints (T : ftype) (l : list num) : list num :=
  match l with [] => [] | e :: l' => e :: drop_similar T e l' end.

(** std::transform( a, b, out, std::minus<int>() ) *)
Fixpoint transform_minus (a b out : list Z) : res mem (list Z) :=
  match a with
  | [] => Ok out
  | x :: a' =>
      match b, out with
      | y :: b', _ :: out' =>
          do d <- int32 (x - y);
          do r <- transform_minus a' b' out';
          Ok (d :: r)
      | _, _ => UB
      end
  end.

(** edge_detection.cpp:223-230; the vectors are not empty *)
Definition getDerivatives (image first second : list Z) : res mem (list Z * list Z) :=
  do f <- transform_minus (tl image) image first;
  match second with
  | [] => UB
  | s0 :: s' => do s <- transform_minus (tl f) f s'; Ok (f, s0 :: s)
  end.

(** edge_detection.cpp:232-254; returns the two point lists and the changed vectors *)
Definition findEdgePoints1 (T : ftype) (data first second : list Z) (P : EdgeParameter) (forward : bool)
    : res mem (list num * list num * (list Z * list Z * list Z)) :=
  do fs <- getDerivatives data first second;
  do positive <- getEdgePoints T data (fst fs) (snd fs) P;
  let positive := removeSimilarPoints T positive in
  let data := rev data in
  do fs <- getDerivatives data (fst fs) (snd fs);
  do negative <- getEdgePoints T data (fst fs) (snd fs) P;
  let negative := removeSimilarPoints T negative in
  let '(positive, negative) :=
    match ep_edge P, forward with
    | FIRST, true | LAST, false => (leaveFirstElement positive, leaveLastElement negative)
    | LAST, true | FIRST, false => (leaveLastElement positive, leaveFirstElement negative)
    | ALL, _ => (positive, negative)
    end in
  Ok (positive, negative, (data, fst fs, snd fs)).

(** edge_detection.cpp:283-286, 289-295 (and 332-336, 339-346): one line of [n] pixels from [p] in
    steps of [st] is copied to or ([add]) added to [data]; [dataX] is an index. *)
Definition read_line (m : mem) (n : Z) (p : ptr) (st : Z) (stop : ptr) (add : bool) (data : list Z)
    : res mem (list Z) :=
  do r <- walk n [p] [st] stop
            (fun cs s => do v <- load m (c0 cs);
                         do o <- (if add then vnth (snd s) (fst s) else Ok 0);
                         do t <- int32 (o + v);
                         do d <- vset (snd s) (fst s) t;
                         Ok (fst s + 1, d)) (0, data);
  Ok (snd r).

Definition point : Type := (num * num)%type.

(** edge_detection.cpp:47-77: createPositiveXEdge and so on *)
Definition createPositiveXEdge (T : ftype) (l : list num) (x y : num) : list point :=
  map (fun d => (tadd T d x, y)) l.
Definition createNegativeXEdge (T : ftype) (l : list num) (x y : num) : list point :=
  map (fun d => (tsub T x d, y)) l.
Definition createPositiveYEdge (T : ftype) (l : list num) (x y : num) : list point :=
  map (fun d => (x, tadd T y d)) l.
Definition createNegativeYEdge (T : ftype) (l : list num) (x y : num) : list point :=
  map (fun d => (x, tsub T y d)) l.

Definition positive_wanted (P : EdgeParameter) : bool :=
  match ep_gradient P with POSITIVE | ANY => true | NEGATIVE => false end.
Definition negative_wanted (P : EdgeParameter) : bool :=
  match ep_gradient P with NEGATIVE | ANY => true | POSITIVE => false end.
Definition horizontal (P : EdgeParameter) : bool :=
  match ep_direction P with LEFT_TO_RIGHT | RIGHT_TO_LEFT => true | _ => false end.
Definition forward (P : EdgeParameter) : bool :=
  match ep_direction P with LEFT_TO_RIGHT | TOP_TO_BOTTOM => true | _ => false end.

(** The state of the loop over the scan lines. *)
Record scan := mkScan {
  sc_row : Z;
  sc_ptr : ptr;
  sc_vec : list Z * list Z * list Z;
  sc_pos : list point;
  sc_neg : list point
}.

(** static_cast<_Type>( start + rowId + ( groupFactor - 1 ) / 2.0 ), line 302 and 353 *)
Definition position (T : ftype) (start rowId group : Z) : num :=
  tcast T (dadd (dofZ (u32 (start + rowId))) (ddiv (dofZ (u32 (group - 1))) (dofZ 2))).

(** edge_detection.cpp:281-322: one iteration, horizontal *)
Definition scan_horizontal (T : ftype) (m : mem) (rs x y w : Z) (P : EdgeParameter) (s : scan)
    : res mem scan :=
  let '(data, first, second) := sc_vec s in
  let imageY := sc_ptr s in
  do data <- read_line m w imageY 1 (padd imageY w) false data;
  do data <- iterM (Z.to_nat (ep_group P - 1)) 1
               (fun groupId data =>
                  let imageX := padd imageY (u32 (groupId * rs)) in
                  read_line m w imageX 1 (padd imageX w) true data) data;
  do r <- findEdgePoints1 T data first second P (forward P);
  let '(edgePositive, edgeNegative, vec) := r in
  let yPosition := position T y (sc_row s) (ep_group P) in
  let fromLeft := createPositiveXEdge T edgePositive (tofZ T x) yPosition in
  let fromRight := createNegativeXEdge T edgeNegative (tofZ T (u32 (x + w - 1))) yPosition in
  let '(pos, neg) := if forward P then (fromLeft, fromRight) else (fromRight, fromLeft) in
  Ok (mkScan (u32 (sc_row s + ep_skip P)) (padd imageY (u32 (rs * ep_skip P))) vec
        (sc_pos s ++ (if positive_wanted P then pos else []))
        (sc_neg s ++ (if negative_wanted P then neg else []))).

(** edge_detection.cpp:331-373: one iteration, vertical *)
Definition scan_vertical (T : ftype) (m : mem) (rs x y h : Z) (P : EdgeParameter) (s : scan)
    : res mem scan :=
  let '(data, first, second) := sc_vec s in
  let imageX := sc_ptr s in
  do data <- read_line m h imageX rs (padd imageX (u32 (h * rs))) false data;
  do data <- iterM (Z.to_nat (ep_group P - 1)) 1
               (fun groupId data =>
                  let imageY := padd imageX groupId in
                  read_line m h imageY rs (padd imageY (u32 (h * rs))) true data) data;
  do r <- findEdgePoints1 T data first second P (forward P);
  let '(edgePositive, edgeNegative, vec) := r in
  let xPosition := position T x (sc_row s) (ep_group P) in
  let fromTop := createPositiveYEdge T edgePositive xPosition (tofZ T y) in
  let fromBottom := createNegativeYEdge T edgeNegative xPosition (tofZ T (u32 (y + h - 1))) in
  let '(pos, neg) := if forward P then (fromTop, fromBottom) else (fromBottom, fromTop) in
  Ok (mkScan (u32 (sc_row s + ep_skip P)) (padd imageX (ep_skip P)) vec
        (sc_pos s ++ (if positive_wanted P then pos else []))
        (sc_neg s ++ (if negative_wanted P then neg else []))).

(** edge_detection.cpp:256-375 and edge_detection.h:105-110: EdgeDetectionBase<T>::find returns
    the points in positiveEdge() and negativeEdge() *)
Definition find (T : ftype) (m : mem) (im : image) (x y w h : Z) (P : EdgeParameter)
    : res mem (list point * list point) :=
  guard (icc im =? GRAY_SCALE) with m;
  guard (valid_roi im x y w h) with m;
  guard (verify P) with m;
  if (horizontal P && (w <? 4)) || (negb (horizontal P) && (h <? 4)) then Ok ([], [])
  else
    let rs := irs im in
    let zeros k := repeat 0 (Z.to_nat k) in
    let start := padd (padd (dataptr im) (u32 (y * rs))) x in
    if horizontal P then
      let rows := u32 (u32 (h - ep_group P) + 1) in
      do s <- loop (fuel_of rows) (fun s => sc_row s <? rows) (scan_horizontal T m rs x y w P)
                (mkScan 0 start (zeros w, zeros w, zeros w) [] []);
      Ok (sc_pos s, sc_neg s)
    else
      let rows := u32 (u32 (w - ep_group P) + 1) in
      do s <- loop (fuel_of rows) (fun s => sc_row s <? rows) (scan_vertical T m rs x y h P)
                (mkScan 0 start (zeros h, zeros h, zeros h) [] []);
      Ok (sc_pos s, sc_neg s).
