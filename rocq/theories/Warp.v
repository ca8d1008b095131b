(** Model of Shift and Rotate: src/image_function.cpp:1651-1711 and 1759-1845 (the forms with all
    parameters).  Definitions only. *)
From Coq Require Import ZArith List Bool.
From Verif Require Import Base Image ImgFun Double.
Import ListNotations.
Open Scope Z_scope.

(** ** Shift *)

Definition I32 : Z := 2147483648.
(** the result of int32_t arithmetic; overflow is undefined *)
Definition s32 {E} (z : Z) : res E Z := if (- I32 <=? z) && (z <? I32) then Ok z else UB.
(** conversion of a uint32_t to int32_t (two's complement) *)
Definition to_s32 (z : Z) : Z := if z <? I32 then z else z - W32.
(** static_cast<int32_t>( x ) of a double; undefined when the truncated value does not fit *)
Definition cast_s32 {E} (x : double) : res E Z :=
  match dtrunc x with Some z => s32 z | None => UB end.

(** image_function.cpp:1769-1782, for one axis: the whole part of the shift, negated, and the
    coefficient.  [f] is the shift after line 1772. *)
Definition shift_parts {E} (s : double) : res E (Z * double) :=
  do t <- cast_s32 s;
  do n <- s32 (- t);
  let f := dadd s (dofZ n) in
  let n := if dlt (dofZ 0) f then n - 1 else n in
  Ok (n, if dlt f (dofZ 0) then dadd (dofZ 1) f else f).

(** image_function.cpp:1785-1788: static_cast<uint32_t>( a * b * 16384 + 0.5 ) *)
Definition shift_coeff {E} (a b : double) : res E Z :=
  cast_to W32 undefined (dadd (dmul (dmul a b) (dofZ 16384)) dhalf).

(** image_function.cpp:1793-1808: the empty area before and after the part with an image, for one
    axis: start and size of the region, size of the image, whole part of the shift *)
Definition empty_before (start n : Z) : Z :=
  if (n <? 0) && (start <? u32 (- n)) then u32 (u32 (- n) - start) else 0.
Definition empty_after (start size total n : Z) : Z :=
  let limit := u32 (total - 1) in
  let e := u32 (u32 (start + size) + u32 n) in
  if (0 <? n) && (limit <? e) then u32 (e - limit) else 0.

(** image_function.cpp:1831-1836 *)
Definition shift_px (c : Z * Z * Z * Z) (p00 p01 p10 p11 : Z) : Z :=
  let '(c0, c1, c2, c3) := c in
  let data := u32 (p00 * c0) in
  let data := u32 (data + u32 (p01 * c3)) in
  let data := u32 (data + u32 (p10 * c1)) in
  let data := u32 (data + u32 (p11 * c2)) in
  u8 (Z.shiftr (u32 (data + 8192)) 14).

(** image_function.cpp:1822-1840: one row of the part with an image; [left] and [right] are
    emptyLeftArea and emptyRightArea.  The pointer outX is not moved past the empty area on the
    left before the loop. *)
Definition shift_row (c : Z * Z * Z * Z) (left right real rsIn : Z) (outY inY : ptr) (m : mem)
    : res mem mem :=
  do m <- memset m outY 0 left;
  let n := u32 (left + real) in
  do m <- walk n [outY; padd inY left] [1; 1] (padd (padd outY left) real)
            (fun cs m =>
               do p00 <- load m (c1 cs);
               do p01 <- load m (padd (c1 cs) rsIn);
               do p10 <- load m (padd (c1 cs) 1);
               do p11 <- load m (padd (c1 cs) (1 + rsIn));
               store m (c0 cs) (shift_px c p00 p01 p10 p11)) m;
  memset m (padd (padd outY left) real) 0 right.

(** image_function.cpp:1815-1817 and 1842-1844: rows of the empty areas at the top and the bottom *)
Definition shift_clear (rows rs width : Z) (outY : ptr) (m : mem) : res mem mem :=
  walk rows [outY] [rs] (padd outY (u32 (rows * rs))) (fun cs m => memset m (c0 cs) 0 width) m.

(** image_function.cpp:1759-1845 *)
Definition Shift (m : mem) (inp : image) (xi yi : Z) (out : image) (xo yo w h : Z)
    (shiftX shiftY : double) : res mem mem :=
  guard valid_roi2 inp xi yi out xo yo w h with m;
  guard is_gray inp && is_gray out with m;
  guard negb (dlt (dofZ (u32 (w - 1))) (dabs shiftX) || dlt (dofZ (u32 (h - 1))) (dabs shiftY)) with m;
  do px <- shift_parts shiftX;
  do py <- shift_parts shiftY;
  let '(nx, coeffX) := px in
  let '(ny, coeffY) := py in
  let restX := dsub (dofZ 1) coeffX in
  let restY := dsub (dofZ 1) coeffY in
  do q0 <- shift_coeff coeffX coeffY;
  do q1 <- shift_coeff restX coeffY;
  do q2 <- shift_coeff restX restY;
  do q3 <- shift_coeff coeffX restY;
  let left := empty_before xi nx in
  let right := empty_after xi w (iw inp) nx in
  let realWidth := u32 (w - left - right) in
  let top := empty_before yi ny in
  let bottom := empty_after yi h (ih inp) ny in
  let realHeight := u32 (h - top - bottom) in
  let rsIn := irs inp in
  let rsOut := irs out in
  let inY := row_ptr inp xi yi 1 in
  let outY := row_ptr out xo yo 1 in
  do a <- s32 (ny * to_s32 rsIn);
  do b <- s32 (nx + a);
  let inY := padd inY b in
  do m <- shift_clear top rsOut w outY m;
  let outY := padd outY (u32 (top * rsOut)) in
  let inY := padd inY (u32 (top * rsIn)) in
  do m <- walk realHeight [outY; inY] [rsOut; rsIn] (padd outY (u32 (realHeight * rsOut)))
            (fun cs m => shift_row (q0, q1, q2, q3) left right realWidth rsIn (c0 cs) (c1 cs) m) m;
  let outY := padd outY (u32 (realHeight * rsOut)) in
  shift_clear bottom rsOut w outY m.

(** ** Rotate *)

(** image_function.cpp:1697-1706: the weighted mean of four pixels *)
Definition rotate_px (coeffX coeffY : double) (p00 p10 p01 p11 : Z) : res mem Z :=
  let one := dofZ 1 in
  let a := dmul (dmul (dofZ p00) (dsub one coeffX)) (dsub one coeffY) in
  let b := dmul (dmul (dofZ p10) coeffX) (dsub one coeffY) in
  let c := dmul (dmul (dofZ p01) (dsub one coeffX)) coeffY in
  let d := dmul (dmul (dofZ p11) coeffX) coeffY in
  cast_to 256 undefined (dadd (dadd (dadd (dadd a b) c) d) dhalf).

(** image_function.cpp:1683-1708: the value of one output pixel *)
Definition rotate_at (m : mem) (inp : image) (xi yi maxX maxY : Z) (posX posY : double) : res mem Z :=
  if dlt posX (dofZ xi) || dlt posY (dofZ yi) then Ok 0
  else
    do x <- cast_to W32 undefined posX;
    do y <- cast_to W32 undefined posY;
    if (maxX <=? x) || (maxY <=? y) then Ok 0
    else
      let inX := padd (padd (dataptr inp) (u32 (y * irs inp))) x in
      do p00 <- load m inX;
      do p10 <- load m (padd inX 1);
      do p01 <- load m (padd inX (irs inp));
      do p11 <- load m (padd inX (irs inp + 1));
      rotate_px (dsub posX (dofZ x)) (dsub posY (dofZ y)) p00 p10 p01 p11.

(** image_function.cpp:1651-1711.  [cosAngle] and [sinAngle] are what the C library functions
    return for the angle. *)
Definition Rotate (cosAngle sinAngle : double) (m : mem) (inp : image) (xi yi : Z)
    (centerXIn centerYIn : double) (out : image) (xo yo : Z) (centerXOut centerYOut : double) (w h : Z)
    : res mem mem :=
  guard valid_roi2 inp xi yi out xo yo w h with m;
  guard is_gray inp && is_gray out with m;
  let outY := row_ptr out xo yo 1 in
  let inXPos := dadd (dopp (dadd (dmul cosAngle centerXOut) (dmul sinAngle centerYOut))) centerXIn in
  let inYPos := dadd (dopp (dadd (dmul (dopp sinAngle) centerXOut) (dmul cosAngle centerYOut))) centerYIn in
  let maxX := u32 (u32 (xi + w) - 1) in
  let maxY := u32 (u32 (yi + h) - 1) in
  do s <- walk h [outY] [irs out] (padd outY (u32 (h * irs out)))
            (fun cs s =>
               let '(m, inXPos, inYPos) := s in
               do t <- walk w cs [1] (padd (c0 cs) w)
                         (fun cs t =>
                            let '(m, posX, posY) := t in
                            do v <- rotate_at m inp xi yi maxX maxY posX posY;
                            do m <- store m (c0 cs) v;
                            Ok (m, dadd posX cosAngle, dsub posY sinAngle)) (m, inXPos, inYPos);
               Ok (fst (fst t), dadd inXPos sinAngle, dadd inYPos cosAngle)) (m, inXPos, inYPos);
  Ok (fst (fst s)).
