(** Model of class LightCorrection, src/tool/light_correction.h and
    src/tool/light_correction.cpp.  Definitions only. *)
From Coq Require Import ZArith List Bool.
From Verif Require Import Base Image ImgFun Double Arith.
Import ListNotations.
Open Scope Z_scope.

(** light_correction.h:38-41.  The class has no constructor: in a default-initialised
    object _width and _height are indeterminate ([None]; reading one is undefined). *)
Record light := mkLight {
  ldata : arr Z;       (* _data, std::vector<uint32_t> *)
  lw : option Z;       (* _width  *)
  lh : option Z        (* _height *)
}.
Definition fresh : light := mkLight (mkArr 0 (fun _ => 0)) None None.

(** Reading a field that may be indeterminate. *)
Definition field {E} (f : option Z) : res E Z :=
  match f with Some z => Ok z | None => UB end.

(** std::vector<uint32_t>::resize( n ): old elements stay, new ones are zero.  A failing
    allocation is not modelled. *)
Definition vresize (v : arr Z) (n : Z) : arr Z :=
  mkArr n (fun i => if i <? alen v then aget v i else 0).

(** light_correction.cpp:35-53: minimum of the samples above 0 and maximum of the samples
    below 255, in uint8_t. *)
Definition light_scan (m : mem) (im : image) : res light (Z * Z) :=
  walk (ih im) [dataptr im] [irs im] (padd (dataptr im) (u32 (ih im * irs im)))
    (fun cs s =>
       walk (iw im) cs [1] (padd (c0 cs) (iw im))
         (fun cs s =>
            do v <- load m (c0 cs);
            let '(mn, mx) := s in
            let mn := if (v <? mn) && (0 <? v) then v else mn in
            let mx := if (mx <? v) && (v <? 255) then v else mx in
            Ok (mn, mx)) s) (255, 0).

(** light_correction.cpp:67-72: the factor stored for one sample *)
Definition light_factor {E} (mn mx v : Z) : res E Z :=
  if mx <? v then Ok 4194304
  else if v <? mn then Ok 4194304
  else do q <- cast_to W32 undefined (ddiv (dmul (dofZ v) (dofZ 4194304)) (dofZ mx));
       Ok (u32 (q + 1)).

(** light_correction.cpp:58-74; the state is the index of the pointer data in _data and
    the vector *)
Definition light_fill (m : mem) (im : image) (mn mx : Z) (d : arr Z) : res light (Z * arr Z) :=
  walk (ih im) [dataptr im] [irs im] (padd (dataptr im) (u32 (ih im * irs im)))
    (fun cs s =>
       walk (iw im) cs [1] (padd (c0 cs) (iw im))
         (fun cs s =>
            do v <- load m (c0 cs);
            do f <- light_factor mn mx v;
            do d <- wr (snd s) (fst s) f;
            Ok (fst s + 1, d)) s) (0, d).

(** light_correction.cpp:24-75.  The exception of line 56 leaves the object with the new
    size and the resized vector. *)
Definition analyze (m : mem) (im : image) (st : light) : res light light :=
  guard valid_image im with st;
  let d := vresize (ldata st) (u32 (iw im * ih im)) in
  let st := mkLight d (Some (iw im)) (Some (ih im)) in
  do s <- light_scan m im;
  let '(mn, mx) := s in
  guard negb (mx <=? mn) with st;
  do r <- light_fill m im mn mx d;
  Ok (mkLight (snd r) (Some (iw im)) (Some (ih im))).

(** light_correction.cpp:100-105: ( ( v << 22 ) + ( d >> 1u ) ) / d in uint32_t, clipped.
    v << 22 is an int; for a uint8_t v it does not overflow. *)
Definition light_px {E} (v d : Z) : res E Z :=
  if d =? 0 then UB
  else let q := u32 (Z.shiftl v 22 + Z.shiftr d 1) / d in
       Ok (if 255 <? q then 255 else q).

(** light_correction.cpp:84-108.  The pointer dataY is modelled by its index in _data. *)
Definition correct_roi (m : mem) (st : light) (im : image) (x y w h : Z) : res mem mem :=
  guard valid_roi im x y w h with m;
  do dw <- field (lw st);
  guard negb (dw =? 0) with m;
  do dh <- field (lh st);
  guard negb (dh =? 0) with m;
  let imY := padd (padd (dataptr im) (u32 (y * irs im))) x in
  do s <- walk h [imY] [irs im] (padd imY (u32 (h * irs im)))
    (fun cs s =>
       do r <- walk w cs [1] (padd (c0 cs) w)
         (fun cs s =>
            do v <- load (snd s) (c0 cs);
            do d <- rd (ldata st) (fst s);
            do q <- light_px v d;
            do m <- store (snd s) (c0 cs) q;
            Ok (fst s + 1, m)) s;
       Ok (fst s + dw, snd r)) (x + u32 (y * dw), m);
  Ok (snd s).

(** light_correction.cpp:77-82 *)
Definition correct (m : mem) (st : light) (im : image) : res mem mem :=
  guard valid_image im with m;
  correct_roi m st im 0 0 (iw im) (ih im).

(** light_correction.cpp:110-130: no validation; the loops use the analysed size and the
    row size of the given image *)
Definition findIncorrectPixels (m : mem) (st : light) (im : image) : res mem (list (Z * Z)) :=
  do dw <- field (lw st);
  do dh <- field (lh st);
  do s <- walk dh [dataptr im] [irs im] (padd (dataptr im) (u32 (dh * irs im)))
    (fun cs s =>
       do r <- walk dw cs [1] (padd (c0 cs) dw)
         (fun cs s =>
            let '(x, y, l) := s in
            do v <- load m (c0 cs);
            Ok (u32 (x + 1), y, if (v =? 0) || (v =? 255) then l ++ [(x, y)] else l)) (0, snd (fst s), snd s);
       Ok (0, u32 (snd (fst r) + 1), snd r)) (0, 0, []);
  Ok (snd s).
