(** Model of the scalar image functions of src/image_function.cpp.
    Definitions only.

    Conventions.
    - A function that writes images takes the memory [m] and returns the memory
      after the call; a thrown exception carries the memory at that moment.
    - [row_ptr im x y cc] is [im.data() + y * rowSize + x * cc] with each product in
      uint32_t.
    - [walk] is the pointer loop of the C++ code.  The first pointer is the one the C++
      loop condition looks at.
    - Local uint8_t images hold values 0..255; a store into uint8_t memory stores the
      value the C++ expression has after its final cast. *)
From Coq Require Import ZArith List Bool.
From Verif Require Import Base Image.
Import ListNotations.
Open Scope Z_scope.

Definition c0 (cs : list ptr) : ptr := nth 0 cs nullp.
Definition c1 (cs : list ptr) : ptr := nth 1 cs nullp.
Definition c2 (cs : list ptr) : ptr := nth 2 cs nullp.
Definition c3 (cs : list ptr) : ptr := nth 3 cs nullp.

(** parameter_validation.h:52-85: VerifyRGBImage, VerifyRGBAImage, VerifyGrayScaleImage *)
Definition is_gray (im : image) : bool := icc im =? GRAY_SCALE.
Definition is_rgb (im : image) : bool := icc im =? RGB.
Definition is_rgba (im : image) : bool := icc im =? RGBA.

(** ** Two inputs, one output *)

(** The loop shared by AbsoluteDifference (image_function.cpp:207-237), BitwiseAnd
    (310-340), BitwiseOr (357-387), BitwiseXor (404-434), Maximum (1132-1162), Minimum
    (1238-1268) and Subtract (1910-1940).  [opt] lists the images passed to OptimiseRoi,
    [f a b] is the expression stored for pixel values [a] of in1 and [b] of in2. *)
Definition pixelwise2 (opt : image -> image -> image -> list image) (f : Z -> Z -> Z) (m : mem)
    (in1 : image) (x1 y1 : Z) (in2 : image) (x2 y2 : Z) (out : image) (xo yo w h : Z)
    : res mem mem :=
  guard valid_roi3 in1 x1 y1 in2 x2 y2 out xo yo w h with m;
  guard common_cc3 in1 in2 out with m;
  let cc := icc in1 in
  let '(w, h) := OptimiseRoi (u32 (w * cc)) h (opt in1 in2 out) in
  let in1Y := row_ptr in1 x1 y1 cc in
  let in2Y := row_ptr in2 x2 y2 cc in
  let outY := row_ptr out xo yo cc in
  walk h [outY; in1Y; in2Y] [irs out; irs in1; irs in2] (padd outY (u32 (h * irs out)))
    (fun cs m =>
       walk w cs [1; 1; 1] (padd (c0 cs) w)
         (fun cs m =>
            do a <- load m (c1 cs);
            do b <- load m (c2 cs);
            store m (c0 cs) (f a b)) m) m.

Definition opt3 (a b c : image) : list image := [a; b; c].
(** image_function.cpp:1918 passes in1 twice and never in2. *)
Definition opt3_subtract (a b c : image) : list image := [a; a; c].

(** image_function.cpp:235 *)
Definition absdiff_px (a b : Z) : Z := u8 (if a <? b then b - a else a - b).
Definition AbsoluteDifference := pixelwise2 opt3 absdiff_px.
(** image_function.cpp:338 *)
Definition BitwiseAnd := pixelwise2 opt3 Z.land.
(** image_function.cpp:385 *)
Definition BitwiseOr := pixelwise2 opt3 Z.lor.
(** image_function.cpp:432 *)
Definition BitwiseXor := pixelwise2 opt3 Z.lxor.
(** image_function.cpp:1160 *)
Definition max_px (a b : Z) : Z := if b <? a then a else b.
Definition Maximum := pixelwise2 opt3 max_px.
(** image_function.cpp:1266 *)
Definition min_px (a b : Z) : Z := if a <? b then a else b.
Definition Minimum := pixelwise2 opt3 min_px.
(** image_function.cpp:1938: the subtraction is done in uint32_t *)
Definition sub_px (a b : Z) : Z := u8 (if a <? b then 0 else u32 (a - b)).
Definition Subtract := pixelwise2 opt3_subtract sub_px.

(** ** One input, one output *)

(** The loop shared by Invert (image_function.cpp:980-1006), LookupTable (1085-1115),
    Threshold (1986-2010 and 2027-2054).  [pre] are the checks made after the ROI check,
    [cc] the channel factor, [f] the stored expression (a result because table lookup may
    be out of range). *)
Definition pixelwise1 (pre : image -> image -> bool) (f : Z -> res mem Z) (m : mem)
    (inp : image) (xi yi : Z) (out : image) (xo yo w h : Z) : res mem mem :=
  guard valid_roi2 inp xi yi out xo yo w h with m;
  guard pre inp out with m;
  let cc := icc inp in
  let '(w, h) := OptimiseRoi (u32 (w * cc)) h [inp; out] in
  let inY := row_ptr inp xi yi cc in
  let outY := row_ptr out xo yo cc in
  walk h [outY; inY] [irs out; irs inp] (padd outY (u32 (h * irs out)))
    (fun cs m =>
       walk w cs [1; 1] (padd (c0 cs) w)
         (fun cs m =>
            do a <- load m (c1 cs);
            do v <- f a;
            store m (c0 cs) v) m) m.

(** image_function.cpp:1004 *)
Definition invert_px (a : Z) : Z := u8 (Z.lnot a).
Definition Invert := pixelwise1 common_cc2 (fun a => Ok (invert_px a)).

(** image_function.cpp:1085-1115; the table size check precedes the colour count check,
    both only throw. *)
Definition LookupTable (table : list Z) :=
  pixelwise1 (fun a b => (Z.of_nat (length table) =? 256) && common_cc2 a b) (vnth table).

(** image_function.cpp:2008.  VerifyGrayScaleImage makes the colour factor 1. *)
Definition thr_px (t a : Z) : Z := if a <? t then 0 else 255.
Definition Threshold (t : Z) :=
  pixelwise1 (fun a b => is_gray a && is_gray b) (fun a => Ok (thr_px t a)).

(** image_function.cpp:2052; the min/max check (2034) precedes the loop *)
Definition thr2_px (lo hi a : Z) : Z := if (a <? lo) || (hi <? a) then 0 else 255.
Definition Threshold2 (lo hi : Z) :=
  pixelwise1 (fun a b => is_gray a && is_gray b && (lo <=? hi)) (fun a => Ok (thr2_px lo hi a)).

(** image_function.cpp:657-678, Copy *)
Definition Copy (m : mem) (inp : image) (xi yi : Z) (out : image) (xo yo w h : Z) : res mem mem :=
  guard valid_roi2 inp xi yi out xo yo w h with m;
  guard common_cc2 inp out with m;
  let cc := icc inp in
  let '(w, h) := OptimiseRoi (u32 (w * cc)) h [inp; out] in
  let inY := row_ptr inp xi yi cc in
  let outY := row_ptr out xo yo cc in
  walk h [outY; inY] [irs out; irs inp] (padd outY (u32 (h * irs out)))
    (fun cs m => memcpy m (c0 cs) (c1 cs) w) m.

(** image_function.cpp:730-748, Fill *)
Definition Fill (m : mem) (im : image) (x y w h : Z) (v : Z) : res mem mem :=
  guard valid_roi im x y w h with m;
  let cc := icc im in
  let '(w, h) := OptimiseRoi (u32 (w * cc)) h [im] in
  let imY := row_ptr im x y cc in
  walk h [imY] [irs im] (padd imY (u32 (h * irs im)))
    (fun cs m => memset m (c0 cs) v w) m.

(** ** Bit depth and colour conversion *)

(** image_function.cpp:462-490, ConvertTo16Bit.  The memory of the 16-bit image is a
    block of uint16_t elements.  The input start column is not multiplied by the colour
    count (line 475). *)
Definition ConvertTo16Bit (m : mem) (inp : image) (xi yi : Z) (out : image) (xo yo w h : Z)
    : res mem mem :=
  guard valid_roi inp xi yi w h with m;
  guard valid_roi out xo yo w h with m;
  guard (icc inp =? icc out) with m;
  let cc := icc inp in
  let inY := row_ptr inp xi yi 1 in
  let outY := row_ptr out xo yo cc in
  let w := u32 (w * cc) in
  walk h [outY; inY] [irs out; irs inp] (padd outY (u32 (h * irs out)))
    (fun cs m =>
       walk w cs [1; 1] (padd (c0 cs) w)
         (fun cs m => do a <- load m (c1 cs); store m (c0 cs) (u16 (Z.shiftl a 8))) m) m.

(** image_function.cpp:518-546, ConvertTo8Bit *)
Definition ConvertTo8Bit (m : mem) (inp : image) (xi yi : Z) (out : image) (xo yo w h : Z)
    : res mem mem :=
  guard valid_roi inp xi yi w h with m;
  guard valid_roi out xo yo w h with m;
  guard (icc inp =? icc out) with m;
  let cc := icc inp in
  let inY := row_ptr inp xi yi 1 in
  let outY := row_ptr out xo yo cc in
  let w := u32 (w * cc) in
  walk h [outY; inY] [irs out; irs inp] (padd outY (u32 (h * irs out)))
    (fun cs m =>
       walk w cs [1; 1] (padd (c0 cs) w)
         (fun cs m => do a <- load m (c1 cs); store m (c0 cs) (u8 (Z.shiftr a 8))) m) m.

(** image_function.cpp:563-593, ConvertToGrayScale *)
Definition ConvertToGrayScale (m : mem) (inp : image) (xi yi : Z) (out : image) (xo yo w h : Z)
    : res mem mem :=
  guard valid_roi2 inp xi yi out xo yo w h with m;
  guard is_gray out with m;
  if icc inp =? GRAY_SCALE then Copy m inp xi yi out xo yo w h else
  let cc := RGB in
  let inY := row_ptr inp xi yi cc in
  let outY := row_ptr out xo yo 1 in
  walk h [outY; inY] [irs out; irs inp] (padd outY (u32 (h * irs out)))
    (fun cs m =>
       walk w cs [1; cc] (padd (c0 cs) w)
         (fun cs m =>
            do a <- load m (c1 cs);
            do b <- load m (padd (c1 cs) 1);
            do c <- load m (padd (c1 cs) 2);
            store m (c0 cs) (u8 ((a + b + c) / 3))) m) m.

(** image_function.cpp:610-643, ConvertToRgb *)
Definition ConvertToRgb (m : mem) (inp : image) (xi yi : Z) (out : image) (xo yo w h : Z)
    : res mem mem :=
  guard valid_roi2 inp xi yi out xo yo w h with m;
  guard is_rgb out with m;
  if icc inp =? RGB then Copy m inp xi yi out xo yo w h else
  let cc := RGB in
  let inY := row_ptr inp xi yi 1 in
  let outY := row_ptr out xo yo cc in
  let w := u32 (w * cc) in
  walk h [outY; inY] [irs out; irs inp] (padd outY (u32 (h * irs out)))
    (fun cs m =>
       walk w cs [cc; 1] (padd (c0 cs) w)
         (fun cs m => do a <- load m (c1 cs); memset m (c0 cs) a cc) m) m.

(** image_function.cpp:695-723, ExtractChannel *)
Definition ExtractChannel (m : mem) (inp : image) (xi yi : Z) (out : image) (xo yo w h : Z) (ch : Z)
    : res mem mem :=
  guard valid_roi2 inp xi yi out xo yo w h with m;
  guard is_gray out with m;
  guard (ch <? icc inp) with m;
  let cc := icc inp in
  let inY := padd (row_ptr inp xi yi cc) ch in
  let outY := row_ptr out xo yo 1 in
  walk h [outY; inY] [irs out; irs inp] (padd outY (u32 (h * irs out)))
    (fun cs m =>
       walk w cs [1; cc] (padd (c0 cs) w)
         (fun cs m => do a <- load m (c1 cs); store m (c0 cs) a) m) m.

(** image_function.cpp:1180-1221, Merge.  The check of lines 1190-1191 repeats
    VerifyRGBImage. *)
Definition Merge (m : mem) (in1 : image) (x1 y1 : Z) (in2 : image) (x2 y2 : Z)
    (in3 : image) (x3 y3 : Z) (out : image) (xo yo w h : Z) : res mem mem :=
  guard valid_roi3 in1 x1 y1 in2 x2 y2 in3 x3 y3 w h with m;
  guard valid_roi out xo yo w h with m;
  guard (is_gray in1 && is_gray in2 && is_gray in3) with m;
  guard is_rgb out with m;
  let cc := RGB in
  let w := u32 (w * cc) in
  let in1Y := row_ptr in1 x1 y1 1 in
  let in2Y := row_ptr in2 x2 y2 1 in
  let in3Y := row_ptr in3 x3 y3 1 in
  let outY := row_ptr out xo yo cc in
  walk h [outY; in1Y; in2Y; in3Y] [irs out; irs in1; irs in2; irs in3]
      (padd outY (u32 (h * irs out)))
    (fun cs m =>
       walk w cs [3; 1; 1; 1] (padd (c0 cs) w)
         (fun cs m => moves m [(c0 cs, c1 cs); (padd (c0 cs) 1, c2 cs); (padd (c0 cs) 2, c3 cs)]) m) m.

(** image_function.cpp:1855-1893, Split *)
Definition Split (m : mem) (inp : image) (xi yi : Z) (out1 : image) (x1 y1 : Z)
    (out2 : image) (x2 y2 : Z) (out3 : image) (x3 y3 w h : Z) : res mem mem :=
  guard valid_roi inp xi yi w h with m;
  guard valid_roi3 out1 x1 y1 out2 x2 y2 out3 x3 y3 w h with m;
  guard is_rgb inp with m;
  guard (is_gray out1 && is_gray out2 && is_gray out3) with m;
  let cc := RGB in
  let w := u32 (w * cc) in
  let inY := row_ptr inp xi yi cc in
  let out1Y := row_ptr out1 x1 y1 1 in
  let out2Y := row_ptr out2 x2 y2 1 in
  let out3Y := row_ptr out3 x3 y3 1 in
  walk h [inY; out1Y; out2Y; out3Y] [irs inp; irs out1; irs out2; irs out3]
      (padd inY (u32 (h * irs inp)))
    (fun cs m =>
       walk w cs [3; 1; 1; 1] (padd (c0 cs) w)
         (fun cs m => moves m [(c1 cs, c0 cs); (c2 cs, padd (c0 cs) 1); (c3 cs, padd (c0 cs) 2)]) m) m.

(** image_function.cpp:1394-1425, ReplaceChannel *)
Definition ReplaceChannel (m : mem) (ch : image) (xc yc : Z) (rgb : image) (xr yr w h : Z) (id : Z)
    : res mem mem :=
  guard valid_roi2 ch xc yc rgb xr yr w h with m;
  guard is_gray ch with m;
  guard is_rgb rgb with m;
  guard (id <? RGB) with m;
  let cc := RGB in
  let inY := row_ptr ch xc yc 1 in
  let outY := padd (row_ptr rgb xr yr cc) id in
  let w := u32 (w * cc) in
  walk h [outY; inY] [irs rgb; irs ch] (padd outY (u32 (h * irs rgb)))
    (fun cs m =>
       walk w cs [cc; 1] (padd (c0 cs) w)
         (fun cs m => do a <- load m (c1 cs); store m (c0 cs) a) m) m.

(** image_function.cpp:1509-1539, RgbToBgr *)
Definition RgbToBgr (m : mem) (inp : image) (xi yi : Z) (out : image) (xo yo w h : Z)
    : res mem mem :=
  guard valid_roi2 inp xi yi out xo yo w h with m;
  guard (is_rgb inp && is_rgb out) with m;
  let cc := RGB in
  let '(w, h) := OptimiseRoi (u32 (w * cc)) h [inp; out] in
  let inY := row_ptr inp xi yi cc in
  let outY := row_ptr out xo yo cc in
  walk h [outY; inY] [irs out; irs inp] (padd outY (u32 (h * irs out)))
    (fun cs m =>
       walk w cs [cc; cc] (padd (c0 cs) w)
         (fun cs m => moves m [(padd (c0 cs) 2, c1 cs);
                               (padd (c0 cs) 1, padd (c1 cs) 1);
                               (c0 cs, padd (c1 cs) 2)]) m) m.

(** image_function.cpp:1556-1587, RgbToRgba *)
Definition RgbToRgba (m : mem) (inp : image) (xi yi : Z) (out : image) (xo yo w h : Z)
    : res mem mem :=
  guard valid_roi2 inp xi yi out xo yo w h with m;
  guard is_rgb inp with m;
  guard is_rgba out with m;
  let w := u32 (w * RGBA) in
  let inY := row_ptr inp xi yi RGB in
  let outY := row_ptr out xo yo RGBA in
  walk h [outY; inY] [irs out; irs inp] (padd outY (u32 (h * irs out)))
    (fun cs m =>
       walk w cs [RGBA; RGB] (padd (c0 cs) w)
         (fun cs m =>
            do m <- moves m [(c0 cs, c1 cs);
                             (padd (c0 cs) 1, padd (c1 cs) 1);
                             (padd (c0 cs) 2, padd (c1 cs) 2)];
            store m (padd (c0 cs) 3) 255) m) m.

(** image_function.cpp:1604-1634, RgbaToRgb *)
Definition RgbaToRgb (m : mem) (inp : image) (xi yi : Z) (out : image) (xo yo w h : Z)
    : res mem mem :=
  guard valid_roi2 inp xi yi out xo yo w h with m;
  guard is_rgba inp with m;
  guard is_rgb out with m;
  let w := u32 (w * RGB) in
  let inY := row_ptr inp xi yi RGBA in
  let outY := row_ptr out xo yo RGB in
  walk h [outY; inY] [irs out; irs inp] (padd outY (u32 (h * irs out)))
    (fun cs m =>
       walk w cs [RGB; RGBA] (padd (c0 cs) w)
         (fun cs m =>
            moves m [(c0 cs, c1 cs);
                     (padd (c0 cs) 1, padd (c1 cs) 1);
                     (padd (c0 cs) 2, padd (c1 cs) 2)]) m) m.

(** ** Geometry *)

(** image_function.cpp:765-812, Flip *)
Definition Flip (m : mem) (inp : image) (xi yi : Z) (out : image) (xo yo w h : Z)
    (horizontal vertical : bool) : res mem mem :=
  guard valid_roi2 inp xi yi out xo yo w h with m;
  guard (is_gray inp && is_gray out) with m;
  if negb horizontal && negb vertical then Copy m inp xi yi out xo yo w h else
  let inY := row_ptr inp xi yi 1 in
  let inYEnd := padd inY (u32 (h * irs inp)) in
  if horizontal && negb vertical then
    let outY := padd (row_ptr out xo yo 1) (w - 1) in
    walk h [inY; outY] [irs inp; irs out] inYEnd
      (fun cs m =>
         walk w cs [1; -1] (padd (c0 cs) w)
           (fun cs m => do a <- load m (c0 cs); store m (c1 cs) a) m) m
  else
    let lastY := padd (padd (dataptr out) (u32 (u32 (yo + h - 1) * irs out))) xo in
    if negb horizontal && vertical then
      walk h [inY; lastY] [irs inp; - irs out] inYEnd
        (fun cs m => memcpy m (c1 cs) (c0 cs) w) m
    else
      walk h [inY; padd lastY (w - 1)] [irs inp; - irs out] inYEnd
        (fun cs m =>
           walk w cs [1; -1] (padd (c0 cs) w)
             (fun cs m => do a <- load m (c0 cs); store m (c1 cs) a) m) m.

(** image_function.cpp:2071-2094, Transpose *)
Definition Transpose (m : mem) (inp : image) (xi yi : Z) (out : image) (xo yo w h : Z)
    : res mem mem :=
  guard valid_roi inp xi yi w h with m;
  guard valid_roi out xo yo h w with m;
  guard (is_gray inp && is_gray out) with m;
  let inX := row_ptr inp xi yi 1 in
  let outY := row_ptr out xo yo 1 in
  walk w [outY; inX] [irs out; 1] (padd outY (u32 (w * irs out)))
    (fun cs m =>
       walk h cs [1; irs inp] (padd (c0 cs) h)
         (fun cs m => do a <- load m (c1 cs); store m (c0 cs) a) m) m.

(** image_function.cpp:1442-1492, Resize.  [positionX] is a list; the pointer idX into it
    is modelled as a cursor whose offset is the index. *)
Definition positionX (wi wo cc : Z) : list Z :=
  map (fun k => u32 (u32 (Z.of_nat k * wi) / wo * cc)) (seq 0 (Z.to_nat wo)).
Definition Resize (m : mem) (inp : image) (xi yi wi hi : Z) (out : image) (xo yo wo ho : Z)
    : res mem mem :=
  guard valid_roi inp xi yi wi hi with m;
  guard valid_roi out xo yo wo ho with m;
  let cc := icc inp in
  let inY := row_ptr inp xi yi cc in
  let outY := row_ptr out xo yo cc in
  let pos := positionX wi wo cc in
  let wo := u32 (wo * cc) in
  walk ho [outY; (0, 0)] [irs out; 1] (padd outY (u32 (ho * irs out)))
    (fun cs m =>
       let idY := snd (c1 cs) in
       let inX := padd inY (u32 (u32 (idY * hi) / ho * irs inp)) in
       if cc =? 1 then
         walk wo [c0 cs; (0, 0)] [1; 1] (padd (c0 cs) wo)
           (fun cs m =>
              do p <- vnth pos (snd (c1 cs));
              do a <- load m (padd inX p);
              store m (c0 cs) a) m
       else
         walk wo [c0 cs; (0, 0)] [cc; 1] (padd (c0 cs) wo)
           (fun cs m =>
              do p <- vnth pos (snd (c1 cs));
              memcpy m (c0 cs) (padd inX p) cc) m) m.

(** ** Pixel access *)

(** image_function.cpp:839-845, GetPixel *)
Definition GetPixel (m : mem) (im : image) (x y : Z) : res mem Z :=
  guard (negb (iempty im || (iw im <=? x) || (ih im <=? y) || negb (is_gray im))) with m;
  load m (padd (padd (dataptr im) (u32 (y * irs im))) x).

(** image_function.cpp:1713-1719, SetPixel *)
Definition SetPixel (m : mem) (im : image) (x y v : Z) : res mem mem :=
  guard (negb (iempty im || (iw im <=? x) || (ih im <=? y) || negb (is_gray im))) with m;
  store m (padd (padd (dataptr im) (u32 (y * irs im))) x) v.

(** image_function.cpp:1721-1742, SetPixel with coordinate vectors *)
Fixpoint setpixel_loop (m : mem) (im : image) (pts : list (Z * Z)) (v : Z) : res mem mem :=
  match pts with
  | [] => Ok m
  | (x, y) :: pts' =>
      guard (negb ((iw im <=? x) || (ih im <=? y))) with m;
      do m' <- store m (padd (padd (dataptr im) (u32 (y * irs im))) x) v;
      setpixel_loop m' im pts' v
  end.
Definition SetPixel2 (m : mem) (im : image) (X Y : list Z) (v : Z) : res mem mem :=
  guard (negb (iempty im || (Z.of_nat (length X) =? 0)
               || negb (Z.of_nat (length X) =? Z.of_nat (length Y)) || negb (is_gray im))) with m;
  setpixel_loop m im (combine X Y) v.

(** ** Reductions: the memory is only read *)

(** [++v[i]] on uint32_t *)
Definition vadd {E} (v : list Z) (i d : Z) : res E (list Z) :=
  do x <- vnth v i; vset v i (u32 (x + d)).

(** image_function.cpp:244-269, Accumulate.  The iterator v is a cursor over [result]. *)
Definition Accumulate (m : mem) (im : image) (x y w h : Z) (result : list Z)
    : res (list Z) (list Z) :=
  guard valid_roi im x y w h with result;
  let cc := icc im in
  let '(w, h) := OptimiseRoi (u32 (w * cc)) h [im] in
  guard (Z.of_nat (length result) =? u32 (w * h)) with result;
  let imY := row_ptr im x y cc in
  do (v, _) <- walk h [imY] [irs im] (padd imY (u32 (h * irs im)))
    (fun cs '(r, k) =>
       walk w cs [1] (padd (c0 cs) w)
         (fun cs '(r, k) =>
            do a <- load m (c0 cs);
            do r' <- vadd r k a;
            Ok (r', k + 1)) (r, k)) (result, 0);
  Ok v.

(** image_function.cpp:867-902, Histogram; returns the 256 * colorCount counters.  The
    width is not multiplied by the colour count. *)
Fixpoint hist_channels {E} (m : mem) (p : ptr) (cc : Z) (n : nat) (c : Z) (hist : list Z)
    : res E (list Z) :=
  match n with
  | O => Ok hist
  | S n' =>
      do a <- load m (padd p c);
      do hist' <- vadd hist (a * cc + c) 1;
      hist_channels m p cc n' (c + 1) hist'
  end.
Definition Histogram (m : mem) (im : image) (x y w h : Z) : res mem (list Z) :=
  guard valid_roi im x y w h with m;
  let '(w, h) := OptimiseRoi w h [im] in
  let cc := icc im in
  let hist := repeat 0 (Z.to_nat (256 * cc)) in
  let imY := row_ptr im x y cc in
  if cc =? 1 then
    walk h [imY] [irs im] (padd imY (u32 (h * irs im)))
      (fun cs hist =>
         walk w cs [1] (padd (c0 cs) w)
           (fun cs hist => do a <- load m (c0 cs); vadd hist a 1) hist) hist
  else
    walk h [imY] [irs im] (padd imY (u32 (h * irs im)))
      (fun cs hist =>
         walk w cs [cc] (padd (c0 cs) w)
           (fun cs hist => hist_channels m (c0 cs) cc (Z.to_nat cc) 0 hist) hist) hist.

(** image_function.cpp:919-963, Histogram with mask *)
Definition HistogramMask (m : mem) (im : image) (x y : Z) (mask : image) (mx my w h : Z)
    : res mem (list Z) :=
  guard valid_roi2 im x y mask mx my w h with m;
  let '(w, h) := OptimiseRoi w h [im; mask] in
  let cc := icc im in
  let hist := repeat 0 (Z.to_nat (256 * cc)) in
  let imY := row_ptr im x y cc in
  let maY := row_ptr mask mx my 1 in
  if cc =? 1 then
    walk h [imY; maY] [irs im; irs mask] (padd imY (u32 (h * irs im)))
      (fun cs hist =>
         walk w cs [1; 1] (padd (c0 cs) w)
           (fun cs hist =>
              do k <- load m (c1 cs);
              if 0 <? k then (do a <- load m (c0 cs); vadd hist a 1) else Ok hist) hist) hist
  else
    walk h [imY; maY] [irs im; irs mask] (padd imY (u32 (h * irs im)))
      (fun cs hist =>
         walk w cs [cc; 1] (padd (c0 cs) w)
           (fun cs hist =>
              do k <- load m (c1 cs);
              if 0 <? k then hist_channels m (c0 cs) cc (Z.to_nat cc) 0 hist else Ok hist) hist) hist.

(** image_function.cpp:1015-1030, IsBinary *)
Definition IsBinary (m : mem) (im : image) (x y w h : Z) : res mem bool :=
  guard valid_roi im x y w h with m;
  guard is_gray im with m;
  do hist <- Histogram m im x y w h;
  Ok (Z.of_nat (length (filter (fun v => 0 <? v) hist)) <? 3).

(** image_function.cpp:1039-1068, IsEqual.  [return false] inside the loop leaves it with
    the exit value [false]. *)
Definition IsEqual (m : mem) (in1 : image) (x1 y1 : Z) (in2 : image) (x2 y2 w h : Z)
    : res mem bool :=
  guard valid_roi2 in1 x1 y1 in2 x2 y2 w h with m;
  guard common_cc2 in1 in2 with m;
  let cc := icc in1 in
  let '(w, h) := OptimiseRoi (u32 (w * cc)) h [in1; in2] in
  let in1Y := row_ptr in1 x1 y1 cc in
  let in2Y := row_ptr in2 x2 y2 cc in
  match
    walk h [in1Y; in2Y] [irs in1; irs in2] (padd in1Y (u32 (h * irs in1)))
      (fun cs t =>
         walk w cs [1; 1] (padd (c0 cs) w)
           (fun cs t =>
              do a <- load m (c0 cs);
              do b <- load m (c1 cs);
              if a =? b then Ok t else Throw false) t) true
  with
  | Ok b => Ok b
  | Throw b => Ok b
  | UB => UB
  | Timeout => Timeout
  end.

(** image_function.cpp:1344-1385, ProjectionProfile *)
Definition ProjectionProfile (m : mem) (im : image) (x y w h : Z) (horizontal : bool)
    : res mem (list Z) :=
  guard valid_roi im x y w h with m;
  let cc := icc im in
  let proj := repeat 0 (Z.to_nat (if horizontal then u32 (w * cc) else h)) in
  let w := u32 (w * cc) in
  let p := row_ptr im x y cc in
  if horizontal then
    walk w [p; (0, 0)] [1; 1] (padd p w)
      (fun cs proj =>
         let k := snd (c1 cs) in
         walk h [c0 cs] [irs im] (padd (c0 cs) (u32 (h * irs im)))
           (fun cs proj => do a <- load m (c0 cs); vadd proj k a) proj) proj
  else
    walk h [p; (0, 0)] [irs im; 1] (padd p (u32 (h * irs im)))
      (fun cs proj =>
         let k := snd (c1 cs) in
         walk w [c0 cs] [1] (padd (c0 cs) w)
           (fun cs proj => do a <- load m (c0 cs); vadd proj k a) proj) proj.

(** image_function.cpp:1947-1969, Sum *)
Definition Sum (m : mem) (im : image) (x y w h : Z) : res mem Z :=
  guard valid_roi im x y w h with m;
  guard is_gray im with m;
  let '(w, h) := OptimiseRoi w h [im] in
  let imY := row_ptr im x y 1 in
  walk h [imY] [irs im] (padd imY (u32 (h * irs im)))
    (fun cs s =>
       walk w cs [1] (padd (c0 cs) w)
         (fun cs s => do a <- load m (c0 cs); Ok (u32 (s + a))) s) 0.

(** ** Whole-image and value-returning forms *)

(** image_buffer.h:263-274 (generate, alignment 1) for a positive size: a new image in a
    fresh block [nb] whose initial contents are [junk].  The theorems quantify over [nb]
    not used by the inputs and over all [junk]. *)
Definition generate (m : mem) (nb : Z) (junk : Z -> Z) (ty w h cc : Z) : mem * image :=
  let rs := u32 (w * cc) in
  (fun b => if b =? nb then mkBlock (h * rs) junk else m b,
   mkImage w h cc 1 rs (Some (nb, 0)) ty).

(** image_function_helper.cpp:90-95 (AbsoluteDifference and likewise BitwiseAnd, BitwiseOr,
    BitwiseXor, Maximum, Minimum, Subtract): whole images into an existing output *)
Definition whole2 (f : mem -> image -> Z -> Z -> image -> Z -> Z -> image -> Z -> Z -> Z -> Z -> res mem mem)
    (m : mem) (in1 in2 out : image) : res mem mem :=
  guard (valid_pair in1 in2 && valid_pair in2 out) with m;
  f m in1 0 0 in2 0 0 out 0 0 (iw out) (ih out).

(** image_function_helper.cpp:79-88: whole images, new output *)
Definition value2 (f : mem -> image -> Z -> Z -> image -> Z -> Z -> image -> Z -> Z -> Z -> Z -> res mem mem)
    (nb : Z) (junk : Z -> Z) (m : mem) (in1 in2 : image) : res mem (mem * image) :=
  guard valid_pair in1 in2 with m;
  let '(m', out) := generate m nb junk (ity in1) (iw in1) (ih in1) (icc in1) in
  do m'' <- f m' in1 0 0 in2 0 0 out 0 0 (iw out) (ih out);
  Ok (m'', out).

(** image_function_helper.cpp:97-107: ROIs, new output *)
Definition value2_roi (f : mem -> image -> Z -> Z -> image -> Z -> Z -> image -> Z -> Z -> Z -> Z -> res mem mem)
    (nb : Z) (junk : Z -> Z) (m : mem) (in1 : image) (x1 y1 : Z) (in2 : image) (x2 y2 w h : Z)
    : res mem (mem * image) :=
  guard valid_roi2 in1 x1 y1 in2 x2 y2 w h with m;
  let '(m', out) := generate m nb junk (ity in1) w h (icc in1) in
  do m'' <- f m' in1 x1 y1 in2 x2 y2 out 0 0 (iw out) (ih out);
  Ok (m'', out).

(** image_function_helper.cpp:510-515 (Invert, and likewise the other one-input forms):
    whole image into an existing output *)
Definition whole1 (f : mem -> image -> Z -> Z -> image -> Z -> Z -> Z -> Z -> res mem mem)
    (m : mem) (inp out : image) : res mem mem :=
  guard valid_pair inp out with m;
  f m inp 0 0 out 0 0 (iw out) (ih out).

(** image_function_helper.cpp:499-508, 517-526: new output with [cc] channels (the input's
    colour count for Invert and Copy, 1 for Threshold, LookupTable, Flip, ExtractChannel,
    ConvertToGrayScale, Normalize and GammaCorrection, RGB for ConvertToRgb and RgbToBgr) *)
Definition value1 (f : mem -> image -> Z -> Z -> image -> Z -> Z -> Z -> Z -> res mem mem)
    (cc : Z) (nb : Z) (junk : Z -> Z) (m : mem) (inp : image) : res mem (mem * image) :=
  guard valid_image inp with m;
  let '(m', out) := generate m nb junk (ity inp) (iw inp) (ih inp) cc in
  do m'' <- f m' inp 0 0 out 0 0 (iw inp) (ih inp);
  Ok (m'', out).
Definition value1_roi (f : mem -> image -> Z -> Z -> image -> Z -> Z -> Z -> Z -> res mem mem)
    (cc : Z) (nb : Z) (junk : Z -> Z) (m : mem) (inp : image) (x y w h : Z)
    : res mem (mem * image) :=
  guard valid_roi inp x y w h with m;
  let '(m', out) := generate m nb junk (ity inp) w h cc in
  do m'' <- f m' inp x y out 0 0 w h;
  Ok (m'', out).

(** image_function_helper.cpp:728-738, Resize returning a new image.  [in.generate( w, h )]
    leaves the colour count at its default of one channel (image_buffer.h:263-273). *)
Definition ResizeNew (nb : Z) (junk : Z -> Z) (m : mem) (inp : image) (x y wi hi wo ho : Z)
    : res mem (mem * image) :=
  guard valid_roi inp x y wi hi with m;
  let '(m', out) := generate m nb junk (ity inp) wo ho 1 in
  do m'' <- Resize m' inp x y wi hi out 0 0 wo ho;
  Ok (m'', out).
