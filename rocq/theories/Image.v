(** The image record and the validation helpers.  Definitions only. *)
From Coq Require Import ZArith List Bool.
From Verif Require Import Base.
Import ListNotations.
Open Scope Z_scope.

(** penguinV::ImageTemplate<T>, src/image_buffer.h:329-352 (the private
    fields).  [idata = None] is a null data pointer. *)
Record image := mkImage {
  iw : Z;             (* _width             uint32_t *)
  ih : Z;             (* _height            uint32_t *)
  icc : Z;            (* _colorChannelCount uint8_t  *)
  ial : Z;            (* _alignment         uint8_t  *)
  irs : Z;            (* _rowSize           uint32_t *)
  idata : option ptr; (* _data *)
  ity : Z             (* _deviceType        uint8_t  *)
}.

(** image_buffer.h:144-147 *)
Definition iempty (im : image) : bool :=
  match idata im with None => true | Some _ => false end.

(** image_buffer.h:421-423 *)
Definition GRAY_SCALE : Z := 1.
Definition RGB : Z := 3.
Definition RGBA : Z := 4.

(** parameter_validation.h:46-50, IsCorrectColorCount *)
Definition IsCorrectColorCount (im : image) : bool :=
  (icc im =? GRAY_SCALE) || (icc im =? RGB) || (icc im =? RGBA).

(** parameter_validation.h:28-45, CheckCommonColorCount: true = does not throw *)
Definition common_cc2 (a b : image) : bool := icc a =? icc b.
Definition common_cc3 (a b c : image) : bool := (icc a =? icc b) && (icc a =? icc c).

(** parameter_validation.h:87-92, ValidateImageParameters(image): true = ok *)
Definition valid_image (im : image) : bool :=
  negb (iempty im) && IsCorrectColorCount im.

(** parameter_validation.h:94-100, ValidateImageParameters(image1, image2) *)
Definition valid_pair (a b : image) : bool :=
  negb (iempty a || iempty b || negb (IsCorrectColorCount a) || negb (IsCorrectColorCount b)
        || negb (iw a =? iw b) || negb (ih a =? ih b)).

(** parameter_validation.h:121-127, ValidateImageParameters(image, x, y, w, h).
    All sums are uint32_t.  true = the function does not throw. *)
Definition valid_roi (im : image) (x y w h : Z) : bool :=
  negb (iempty im || negb (IsCorrectColorCount im) || (w =? 0) || (h =? 0)
        || (iw im <? u32 (x + w)) || (ih im <? u32 (y + h))
        || (u32 (x + w) <? w) || (u32 (y + h) <? h)).

(** parameter_validation.h:129-136: the variadic form checks each image's ROI
    in turn with the common width and height. *)
Definition valid_roi2 (a : image) (xa ya : Z) (b : image) (xb yb : Z) (w h : Z) : bool :=
  valid_roi a xa ya w h && valid_roi b xb yb w h.
Definition valid_roi3 (a : image) (xa ya : Z) (b : image) (xb yb : Z)
    (c : image) (xc yc : Z) (w h : Z) : bool :=
  valid_roi a xa ya w h && valid_roi2 b xb yb c xc yc w h.

(** parameter_validation.h:138-151, IsFullImageRow *)
Definition full_row (w : Z) (im : image) : bool := irs im =? w.

(** parameter_validation.h:153-160, OptimiseRoi: merges all rows into one when
    no image has row padding.  The list holds the images passed by the caller. *)
Definition OptimiseRoi (w h : Z) (ims : list image) : Z * Z :=
  if forallb (full_row w) ims && (w <? (W32 - 1) / h)
  then (u32 (w * h), 1)
  else (w, h).

(** image.data() + y * rowSize + x * colorCount, each product in uint32_t
    (e.g. image_function.cpp:219).  Callers check emptiness first; a null
    pointer gives the pseudo block -1, which has no elements. *)
Definition null_ptr : ptr := (-1, 0).
Definition dataptr (im : image) : ptr :=
  match idata im with Some p => p | None => null_ptr end.
Definition row_ptr (im : image) (x y cc : Z) : ptr :=
  padd (padd (dataptr im) (u32 (y * irs im))) (u32 (x * cc)).
