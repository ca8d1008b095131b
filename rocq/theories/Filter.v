(** Model of the filters, src/filtering.cpp:28-349.  Definitions only.  The forms that create
    the output image (49-58, 68-77, ...) are not modelled. *)
From Coq Require Import ZArith List Bool.
From Verif Require Import Base Image ImgFun Double Edge.
From Coq Require Import Floats.SpecFloat.
Import ListNotations.
Open Scope Z_scope.

(** ** Median *)

(** filtering.cpp:119-130: copies the kernelSize x kernelSize pixels at [inX] to the vector;
    [s] holds the index [value] and the vector *)
Definition gather (m : mem) (inX : ptr) (rs kernelSize : Z) (data : list Z) : res mem (list Z) :=
  do s <- walk kernelSize [inX] [rs] (padd inX (u32 (kernelSize * rs)))
            (fun cs s =>
               walk kernelSize cs [1] (padd (c0 cs) kernelSize)
                 (fun cs s =>
                    do v <- load m (c0 cs);
                    do d <- vset (snd s) (fst s) v;
                    Ok (fst s + 1, d)) s)
            (0, data);
  Ok (snd s).

(** filtering.cpp:79-136.  [nth_element l n] is the contents of the vector [l] after
    std::nth_element( begin, begin + n, end ). *)
Definition Median (nth_element : list Z -> Z -> list Z) (m : mem)
    (inp : image) (xi yi : Z) (out : image) (xo yo w h k : Z) : res mem mem :=
  guard valid_roi2 inp xi yi out xo yo w h with m;
  guard is_gray inp && is_gray out with m;
  guard negb ((k <? 3) || (k mod 2 =? 0) || (w <=? k) || (h <=? k)) with m;
  do m <- Copy m inp xi yi out xo yo w (k / 2);
  do m <- Copy m inp xi (u32 (yi + h - k / 2)) out xo (u32 (yo + h - k / 2)) w (k / 2);
  do m <- Copy m inp xi (u32 (yi + k / 2)) out xo (u32 (yo + k / 2)) (k / 2) (u32 (h - (k - 1)));
  do m <- Copy m inp (u32 (xi + w - k / 2)) (u32 (yi + k / 2)) out (u32 (xo + w - k / 2)) (u32 (yo + k / 2))
            (k / 2) (u32 (h - (k - 1)));
  let size := u32 (k * k) in
  let data := repeat 0 (Z.to_nat size) in
  let inY := row_ptr inp xi yi 1 in
  let outY := padd (row_ptr out xo (u32 (yo + k / 2)) 1) (k / 2) in
  let w := u32 (w - (k - 1)) in
  let h := u32 (h - (k - 1)) in
  do s <- walk h [outY; inY] [irs out; irs inp] (padd outY (u32 (h * irs out)))
            (fun cs s =>
               walk w cs [1; 1] (padd (c0 cs) w)
                 (fun cs s =>
                    do d <- gather (fst s) (c1 cs) (irs inp) k (snd s);
                    let d := nth_element d (size / 2) in
                    do v <- vnth d (size / 2);
                    do m <- store (fst s) (c0 cs) v;
                    Ok (m, d)) s)
            (m, data);
  Ok (fst s).

(** filtering.cpp:61-66 *)
Definition Median2 (nth_element : list Z -> Z -> list Z) (m : mem) (inp out : image) (k : Z) : res mem mem :=
  guard valid_pair inp out with m;
  Median nth_element m inp 0 0 out 0 0 (iw out) (ih out) k.

(** ** Prewitt and Sobel *)

Definition tmul (T : ftype) : num -> num -> num := SFmul (fst T) (snd T).
Definition tdiv (T : ftype) : num -> num -> num := SFdiv (fst T) (snd T).
Definition tsqrt (T : ftype) : num -> num := SFsqrt (fst T) (snd T).

(** filtering.cpp:184 and 292: 1.0f / ( n * sqrtf( 2.0f ) ) with n = 3 and 4 *)
Definition multiplier (n : Z) : num :=
  tdiv FLOAT (tofZ FLOAT 1) (tmul FLOAT (tofZ FLOAT n) (tsqrt FLOAT (tofZ FLOAT 2))).

(** filtering.cpp:40: sqrtf( i * i + j * j ) * multiplier_ + 0.5f; sqrtf is correctly rounded
    (as IEEE 754 demands) *)
Definition magnitude (n i j : Z) : num :=
  tadd FLOAT (tmul FLOAT (tsqrt FLOAT (tofZ FLOAT (u32 (u32 (i * i) + u32 (j * j))))) (multiplier n)) (thalf FLOAT).

(** filtering.cpp:33-42: the table.  [junk]: see Tone.v; converting a float outside the range
    of uint8_t is undefined by the C++ standard ([undefined]), compilers produce some value. *)
Definition table : Type := Z -> Z -> Z.
Definition table_set (t : table) (i j v : Z) : table :=
  fun a b => if (a =? i) && (b =? j) then v else t a b.
Definition filter_kernel (junk : num -> res mem Z) (n : Z) : res mem table :=
  let size := 256 * n in
  iterM (Z.to_nat size) 0
    (fun i t => iterM (Z.to_nat (size - i)) i
       (fun j t => do v <- cast_to 256 junk (magnitude n i j);
                   Ok (table_set (table_set t j i v) i j v)) t)
    (fun _ _ => 0).
(** kernel.kernel[i][j] *)
Definition table_get (n : Z) (t : table) (i j : Z) : res mem Z :=
  if (0 <=? i) && (i <? 256 * n) && (0 <=? j) && (j <? 256 * n) then Ok (t i j) else UB.

(** filtering.cpp:226-229: the Prewitt gradients at [p] *)
Definition prewitt_at (m : mem) (p : ptr) (rs : Z) : res mem (Z * Z) :=
  let yPlusX := u32 (rs + 1) in
  let yMinusX := u32 (rs - 1) in
  do a <- load m (padd p (- yPlusX));
  do b <- load m (padd p yPlusX);
  let partialG := a - b in
  do c <- load m (padd p (-1));
  do d <- load m (padd p yMinusX);
  do e <- load m (padd p (- yMinusX));
  do f <- load m (padd p 1);
  let gX := partialG + c + d - e - f in
  do c <- load m (padd p (- rs));
  do d <- load m (padd p (- yMinusX));
  do e <- load m (padd p yMinusX);
  do f <- load m (padd p rs);
  let gY := partialG + c + d - e - f in
  Ok (gX, gY).

(** filtering.cpp:333-336: the Sobel gradients *)
Definition sobel_at (m : mem) (p : ptr) (rs : Z) : res mem (Z * Z) :=
  let yPlusX := u32 (rs + 1) in
  let yMinusX := u32 (rs - 1) in
  do a <- load m (padd p (- yPlusX));
  do b <- load m (padd p yPlusX);
  let partialG := a - b in
  do c <- load m (padd p yMinusX);
  do d <- load m (padd p (- yMinusX));
  do e <- load m (padd p (-1));
  do f <- load m (padd p 1);
  let gX := partialG + c - d + 2 * (e - f) in
  do c <- load m (padd p (- yMinusX));
  do d <- load m (padd p yMinusX);
  do e <- load m (padd p (- rs));
  do f <- load m (padd p rs);
  let gY := partialG + c - d + 2 * (e - f) in
  Ok (gX, gY).

(** filtering.cpp:167-244 and 275-351; the two functions differ in [n] and in the gradients
    only.  The gradients are sums of a few values below 256 and fit int32_t.  The table is a
    static object made by the first call; here every call makes it. *)
Definition gradient_filter (n : Z) (at_point : mem -> ptr -> Z -> res mem (Z * Z))
    (junk : num -> res mem Z) (m : mem)
    (inp : image) (xi yi : Z) (out : image) (xo yo w h : Z) : res mem mem :=
  guard valid_roi2 inp xi yi out xo yo w h with m;
  guard is_gray inp && is_gray out with m;
  guard negb ((w <? 3) || (h <? 3)) with m;
  let startXOffset := if 0 <? xi then 1 else 0 in
  let startYOffset := if 0 <? yi then 1 else 0 in
  let endXOffset := if u32 (u32 (xi + w) + 1) <? iw inp then 1 else 0 in
  let endYOffset := if u32 (u32 (yi + h) + 1) <? ih inp then 1 else 0 in
  let gradientWidth :=
    u32 (w - ((if 0 <? startXOffset then 0 else 1) + (if 0 <? endXOffset then 0 else 1))) in
  let gradientHeight :=
    u32 (h - ((if 0 <? startYOffset then 0 else 1) + (if 0 <? endYOffset then 0 else 1))) in
  let inY := padd (padd (padd (row_ptr inp 0 (u32 (yi + 1 - startYOffset)) 1) xi) 1) (- startXOffset) in
  let outY := row_ptr out xo yo 1 in
  do m <- (if startYOffset =? 0 then memset m outY 0 w else Ok m);
  let outY := if startYOffset =? 0 then padd outY (irs out) else outY in
  do kernel <- filter_kernel junk n;
  do m <- walk gradientHeight [inY; outY] [irs inp; irs out] (padd inY (u32 (gradientHeight * irs inp)))
            (fun cs m =>
               let outX := c1 cs in
               do m <- (if startXOffset =? 0 then store m outX 0 else Ok m);
               let outX := if startXOffset =? 0 then padd outX 1 else outX in
               do m <- walk gradientWidth [c0 cs; outX] [1; 1] (padd (c0 cs) gradientWidth)
                         (fun cs m =>
                            do g <- at_point m (c0 cs) (irs inp);
                            do v <- table_get n kernel (Z.abs (fst g)) (Z.abs (snd g));
                            store m (c1 cs) v) m;
               if endXOffset =? 0 then store m (padd outX gradientWidth) 0 else Ok m)
            m;
  if endYOffset =? 0 then memset m (padd outY (gradientHeight * irs out)) 0 w else Ok m.

Definition Prewitt := gradient_filter 3 prewitt_at.
Definition Sobel := gradient_filter 4 sobel_at.

(** filtering.cpp:149-154 and 257-262 *)
Definition Prewitt2 (junk : num -> res mem Z) (m : mem) (inp out : image) : res mem mem :=
  guard valid_pair inp out with m;
  Prewitt junk m inp 0 0 out 0 0 (iw out) (ih out).
Definition Sobel2 (junk : num -> res mem Z) (m : mem) (inp out : image) : res mem mem :=
  guard valid_pair inp out with m;
  Sobel junk m inp 0 0 out 0 0 (iw out) (ih out).
