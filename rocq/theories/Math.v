(** src/math: Hough transform, Haar transform, linear system solver.  Definitions only. *)
From Coq Require Import ZArith List Bool Reals.
From Verif Require Import Base ImgFun Double Edge Filter Arith.
From Coq Require Import Floats.SpecFloat.
Import ListNotations.
Open Scope Z_scope.

(** ** Hough transform (src/math/hough_transform.cpp) *)

(** What runHoughTransform takes from elsewhere: std::cos, std::sin, std::sort (undefined for
    values that cannot be ordered), the two constants of lines 28-29 and the conversion in
    line 60, [static_cast<int>( ( a / b ) + 0.5 )], [None] when the value does not fit. *)
Record hough_lib (A : arith) := mkLib {
  lcos : carrier A -> carrier A;
  lsin : carrier A -> carrier A;
  lsort : list (carrier A) -> res unit (list (carrier A));
  lmin_angle : carrier A;
  lmin_tol : carrier A;
  lsteps : carrier A -> carrier A -> option Z
}.
Arguments mkLib {A}.
Arguments lcos {A}.
Arguments lsin {A}.
Arguments lsort {A}.
Arguments lmin_angle {A}.
Arguments lmin_tol {A}.
Arguments lsteps {A}.

Definition INT_MAX : Z := 2147483647.
Definition in_int (z : Z) : bool := (-2147483648 <=? z) && (z <=? INT_MAX).

(** For float and double.  Line 28: 0.001f * static_cast<float>( pi ) / 180.0f, line 29: 1e-5f,
    both promoted to the type; the 0.5 in line 60 is a double. *)
Definition min_angle_f : num :=
  tdiv FLOAT (tmul FLOAT (S754_finite false 8589935 (-33)) (S754_finite false 13176795 (-22))) (tofZ FLOAT 180).
Definition min_tol_f : num := S754_finite false 10995116 (-40).
Definition ieee_steps (T : ftype) (a b : num) : option Z :=
  match dtrunc (dadd (tcast DOUBLE (tdiv T a b)) dhalf) with
  | Some z => if in_int z then Some z else None
  | None => None
  end.
Definition ieee_lib (T : ftype) (cos sin : num -> num) (sort : list num -> res unit (list num))
    : hough_lib (ieee T) :=
  @mkLib (ieee T) cos sin sort (tcast T min_angle_f) (tcast T min_tol_f) (ieee_steps T).
(** In exact arithmetic. *)
Definition exact_steps (a b : R) : option Z :=
  let z := (up (a / b + / 2) - 1)%Z in
  if (0 <=? z) && in_int z then Some z else None.
Definition exact_lib (sort : list R -> res unit (list R)) : hough_lib exact :=
  @mkLib exact cos sin sort (IZR 1 / IZR 1000 * PI / IZR 180)%R (IZR 1 / IZR 100000)%R exact_steps.

Section HOUGH.
Variable A : arith.
Variable L : hough_lib A.
Notation num := (carrier A).
Notation point := (num * num)%type.

(** lines 82 and 131 *)
Definition distance (s c : num) (p : point) : num := aadd A (amul A (fst p) s) (amul A (snd p) c).

(** lines 94-98; the state is endPointId and whether the loop was left by break *)
Definition extend (ds : list num) (tolerance : num) (e : Z) : res unit Z :=
  let n := Z.of_nat (length ds) in
  do s <- loop (fuel_of (n + 1)) (fun s => negb (snd s) && (fst s <? n))
            (fun s => do x <- lrd ds (fst s);
                      if alt A tolerance x then Ok (fst s, true) else Ok (u64 (fst s + 1), false))
            (e, false);
  Ok (fst s).

(** lines 88-104: (initialPointId, onLinePointCount) *)
Definition best_strip (range : num) (ds : list num) : res unit (Z * Z) :=
  let n := Z.of_nat (length ds) in
  do s <- loop (fuel_of n) (fun s => let '(_, e, _, _) := s in e <? n)
            (fun s => let '(p, e, initial, count) := s in
               do d <- lrd ds p;
               do e <- extend ds (aadd A range d) e;
               if count <? u64 (e - p) then Ok (u64 (p + 1), e, p, u64 (e - p))
               else Ok (u64 (p + 1), e, initial, count))
            (0, 1, 0, 1);
  let '(_, _, initial, count) := s in Ok (initial, count).

(** lines 72-113, one angle; the state is (bestAngleId, highestPointCount, averageDistance) *)
Definition try_angle (input : list point) (range : num) (angleId : Z) (angleVal : num)
    (best : Z * Z * num) : res unit (Z * Z * num) :=
  let '(bestAngleId, highest, average) := best in
  do ds <- lsort L (map (distance (lsin L angleVal) (lcos L angleVal)) input);
  do r <- best_strip range ds;
  let (initial, count) := r in
  if highest <=? count then
    do a <- lrd ds (u64 (u64 (initial + count) - 1));
    do b <- lrd ds initial;
    let current := adiv A (aadd A a b) (aZ A 2) in
    if (highest <? count) || alt A (aabs A current) (aabs A average)
    then Ok (angleId, count, current) else Ok best
  else Ok best.

(** lines 66-113.  ++angleId overflows int beyond INT_MAX. *)
Definition search (input : list point) (initialAngle step range : num) (n : Z) : res unit (Z * Z * num) :=
  do s <- loop (fuel_of (2 * n + 1)) (fun s => let '(id, _, _) := s in id <=? n)
            (fun s => let '(id, val, best) := s in
               do best <- try_angle input range id val best;
               if id =? INT_MAX then UB else Ok (id + 1, asub A val step, best))
            (- n, aopp A (asub A initialAngle (amul A step (aZ A n))), (- n, 0, aZ A 0));
  Ok (snd s).

(** Lines 34-141.  The results are the returned value and the two output vectors, which are
    different objects from [input]. *)
Definition runHoughTransform (input : list point) (initialAngle angleTolerance angleStep lineTolerance : num)
    (outOnLine outOffLine : list point) : res unit (bool * list point * list point) :=
  if Z.of_nat (length input) <? 2 then Ok (false, outOnLine, outOffLine)
  else
    let angleStep := if alt A angleStep (lmin_angle L) then lmin_angle L else angleStep in
    let angleTolerance := if alt A angleTolerance (lmin_angle L) then lmin_angle L else angleTolerance in
    let angleTolerance := if alt A angleTolerance angleStep then angleStep else angleTolerance in
    let lineTolerance := if alt A lineTolerance (lmin_tol L) then lmin_tol L else lineTolerance in
    match lsteps L angleTolerance angleStep with
    | None => UB
    | Some n =>
        do r <- search input initialAngle angleStep (amul A lineTolerance (aZ A 2)) n;
        let '(bestAngleId, _, average) := r in
        let angleVal := aopp A (aadd A initialAngle (amul A angleStep (aZ A bestAngleId))) in
        let minDistance := asub A average lineTolerance in
        let maxDistance := aadd A average lineTolerance in
        let c := lcos L angleVal in
        let s := lsin L angleVal in
        let out := fold_left (fun out p =>
          let d := distance s c p in
          if alt A d minDistance || alt A maxDistance d
          then (fst out, snd out ++ [p]) else (fst out ++ [p], snd out)) input ([], []) in
        Ok (true, fst out, snd out)
    end.
End HOUGH.

(** ** Haar transform (src/math/haar_transform.cpp) *)

(** 1.0f / std::sqrt( 2.0f ), a float promoted to the type (lines 42 and 94) *)
Definition coefficient_f : num := tdiv FLOAT (tofZ FLOAT 1) (tsqrt FLOAT (tofZ FLOAT 2)).

Section HAAR.
Variable A : arith.
Variable coef : carrier A.
Notation num := (carrier A).

(** lines 30 and 83; true: throw *)
Definition haar_invalid (input output : arr num) (width height : Z) : bool :=
  (alen input =? 0) || negb (alen input =? alen output) || negb (alen input =? u64 (width * height))
  || negb (width mod 2 =? 0) || negb (height mod 2 =? 0).

(** Lines 27-78.  A pointer into a vector is (number of the vector, index).  [input] is read
    before [output] is written, so both may be the same vector. *)
Definition directTransform (input output : arr num) (width height : Z) : res unit (arr num) :=
  if haar_invalid input output width height then Throw tt
  else
    let temp := mkArr (alen input) (fun _ => aZ A 0) in
    let halfWidth := width / 2 in
    do temp <- walk height [(0, 0); (1, 0)] [width; width] (0, alen input)
      (fun cs temp =>
         walk halfWidth [c0 cs; c1 cs] [2; 1] (padd (c0 cs) width)
           (fun cs temp =>
              do y <- rd input (snd (c0 cs) + 1);
              do x <- rd input (snd (c0 cs));
              do temp <- wr temp (snd (c1 cs)) (amul A (aadd A y x) coef);
              wr temp (snd (c1 cs) + halfWidth) (amul A (asub A y x) coef)) temp) temp;
    let halfHeight := u64 (height / 2 * width) in
    walk width [(1, 0); (2, 0)] [1; 1] (1, width)
      (fun cs output =>
         walk (height / 2) [c0 cs; c1 cs] [u64 (2 * width); width] (padd (c0 cs) (u64 (height * width)))
           (fun cs output =>
              do y <- rd temp (snd (c0 cs) + width);
              do x <- rd temp (snd (c0 cs));
              do output <- wr output (snd (c1 cs)) (amul A (aadd A y x) coef);
              wr output (snd (c1 cs) + halfHeight) (amul A (asub A y x) coef)) output) output.

(** Lines 80-130. *)
Definition inverseTransform (input output : arr num) (width height : Z) : res unit (arr num) :=
  if haar_invalid input output width height then Throw tt
  else
    let temp := mkArr (alen input) (fun _ => aZ A 0) in
    let halfWidth := width / 2 in
    do temp <- walk height [(0, 0); (1, 0)] [width; width] (0, alen input)
      (fun cs temp =>
         walk halfWidth [c1 cs; c0 cs] [2; 1] (padd (c1 cs) width)
           (fun cs temp =>
              do x <- rd input (snd (c1 cs));
              do y <- rd input (snd (c1 cs) + halfWidth);
              do temp <- wr temp (snd (c0 cs)) (amul A (asub A x y) coef);
              wr temp (snd (c0 cs) + 1) (amul A (aadd A x y) coef)) temp) temp;
    let halfHeight := u64 (height / 2 * width) in
    walk width [(1, 0); (2, 0)] [1; 1] (1, width)
      (fun cs output =>
         walk (height / 2) [c1 cs; c0 cs] [u64 (2 * width); width] (padd (c1 cs) (u64 (height * width)))
           (fun cs output =>
              do x <- rd temp (snd (c1 cs));
              do y <- rd temp (snd (c1 cs) + halfHeight);
              do output <- wr output (snd (c0 cs)) (amul A (asub A x y) coef);
              wr output (snd (c0 cs) + width) (amul A (aadd A x y) coef)) output) output.
End HAAR.

(** ** Linear systems (src/math/math_base.cpp) *)

(** 1e-10 *)
Definition tiny_d : num := S754_finite false 7737125245533627 (-86).

Section GAUSS.
Variable A : arith.
Variable tiny : carrier A.
Notation num := (carrier A).

(** [for ( size_t i = a; i < b; ++i ) body] *)
Definition for_ {S} (a b : Z) (body : Z -> S -> res unit S) (s : S) : res unit S :=
  iterM (Z.to_nat (b - a)) a body s.

(** lines 77-90: (maxRowId, maxColumnId, maxCoeff) *)
Definition find_pivot (n : Z) (matrix : arr num) (i : Z) : res unit (Z * Z * num) :=
  for_ i n (fun j => for_ i n (fun k s =>
    do v <- rd matrix (j + k * n);
    let value := aabs A v in
    if alt A (snd s) value then Ok (k, j, value) else Ok s)) (i, i, aZ A 0).

Definition state : Type := (arr num * arr Z * arr num)%type.  (* matrix, matrixIndices, terms *)

(** lines 95-100 *)
Definition swap_columns (n i c : Z) (s : state) : res unit state :=
  if c =? i then Ok s
  else for_ 0 n (fun k s => let '(m, x, t) := s in
         do m <- swap m (i + k * n) (c + k * n);
         do x <- swap x (i + k * n) (c + k * n);
         Ok (m, x, t)) s.
(** lines 102-109 *)
Definition swap_rows (n i r : Z) (s : state) : res unit state :=
  if r =? i then Ok s
  else
    do s <- for_ 0 n (fun j s => let '(m, x, t) := s in
         do m <- swap m (j + i * n) (j + r * n);
         do x <- swap x (j + i * n) (j + r * n);
         Ok (m, x, t)) s;
    let '(m, x, t) := s in
    do t <- swap t i r;
    Ok (m, x, t).
(** lines 111-118; a division by zero is not undefined behaviour for IEEE types *)
Definition eliminate (n i : Z) (s : state) : res unit state :=
  for_ (i + 1) n (fun j s => let '(m, x, t) := s in
    do a <- rd m (i + j * n);
    do p <- rd m (i + i * n);
    let multiplicator := adiv A a p in
    do m <- for_ i n (fun k m =>
      do a <- rd m (k + j * n);
      do b <- rd m (k + i * n);
      wr m (k + j * n) (asub A a (amul A b multiplicator))) m;
    do a <- rd t j;
    do b <- rd t i;
    do t <- wr t j (asub A a (amul A b multiplicator));
    Ok (m, x, t)) s.
(** lines 76-119 *)
Definition direct_method (n : Z) (s : state) : res unit state :=
  for_ 0 n (fun i s =>
    do p <- find_pivot n (fst (fst s)) i;
    let '(maxRowId, maxColumnId, maxCoeff) := p in
    if alt A maxCoeff tiny then Throw tt
    else
      do s <- swap_columns n i maxColumnId s;
      do s <- swap_rows n i maxRowId s;
      eliminate n i s) s.
(** lines 121-137 *)
Definition inverse_method (n : Z) (m t : arr num) : res unit (arr num) :=
  for_ 0 n (fun l roots =>
    let i := n - 1 - l in
    do p <- rd m (i + i * n);
    if alt A (aabs A p) tiny then wr roots i (aZ A 0)
    else
      do temp <- for_ (i + 1) n (fun k temp =>
        do a <- rd roots k;
        do b <- rd m (k + i * n);
        Ok (aadd A temp (amul A a b))) (aZ A 0);
      do b <- rd t i;
      wr roots i (adiv A (asub A b temp) p)) (mkArr n (fun _ => aZ A 0)).
(** Lines 60-142; [roots] is the caller's vector.  The products of sizes below 2^32 do not
    overflow size_t. *)
Definition getMatrixRoots (squareMatrix freeTerms roots : arr num) : res unit (arr num) :=
  if (alen squareMatrix =? 0) || (alen freeTerms =? 0)
     || negb (alen squareMatrix =? u64 (alen freeTerms * alen freeTerms)) || (alen freeTerms <? 2)
  then Throw tt
  else
    let n := alen freeTerms in
    do x <- for_ 0 n (fun i => for_ 0 n (fun j x => wr x (i + j * n) i)) (mkArr (u64 (n * n)) (fun _ => 0));
    do s <- direct_method n (squareMatrix, x, freeTerms);
    let '(m, x, t) := s in
    do unsorted <- inverse_method n m t;
    for_ 0 n (fun i roots =>
      do k <- rd x (i + i * n);
      do v <- rd unsorted i;
      wr roots k v) roots.
End GAUSS.
