(** Model of the pictures the windows show: _setupImage of src/ui/x11/x11_ui.cpp and the copy of
    UiWindowWin::setImage, src/ui/win/win_ui.cpp.  Definitions only.

    The loops over rows and pixels compare pointers; here they are counted, which is the same as
    long as height * rowSize is less than 2^32.  The calls of X11 and of Windows are not modelled. *)
From Coq Require Import ZArith List Bool.
From Verif Require Import Base Image ImgFun.
Import ListNotations.
Open Scope Z_scope.

(** memcpy *)
Definition copy_bytes (n : Z) (src dst : ptr) (m : mem) : res mem mem :=
  iterM (Z.to_nat n) 0 (fun c m => do v <- load m (padd src c); store m (padd dst c) v) m.

(** x11_ui.cpp:102-105: one pixel of a gray-scale image *)
Definition gray_pixel (src dst : ptr) (m : mem) : res mem mem :=
  do v <- load m src;
  do m <- store m dst v;
  do m <- store m (padd dst 1) v;
  do m <- store m (padd dst 2) v;
  store m (padd dst 3) 0.
(** x11_ui.cpp:117-120: one pixel of a colour image *)
Definition rgb_pixel (src dst : ptr) (m : mem) : res mem mem :=
  do m <- copy_bytes 3 src dst m;
  store m (padd dst 3) 0.

(** x11_ui.cpp:84-128; the vector [_data] is the block [b], filled with 0 by resize.  The second
    result: whether [_image] was made.  [_width] and [_height] are those of the image
    (x11_ui.cpp:33-34). *)
Definition x11_setupImage (m : mem) (im : image) (b : Z) : res mem (mem * bool) :=
  match idata im with
  | None => Ok (m, false)
  | Some p =>
      let w := iw im in let h := ih im in
      let m1 := fun b' => if b' =? b then mkBlock (u32 (u32 (w * h) * 4)) (fun _ => 0) else m b' in
      if icc im =? 1 then
        do m2 <- iterM (Z.to_nat h) 0 (fun y => iterM (Z.to_nat w) 0 (fun x =>
                   gray_pixel (padd p (y * irs im + x)) (b, 4 * (y * w + x)))) m1;
        Ok (m2, true)
      else
        guard icc im =? 3 with m;
        do m2 <- iterM (Z.to_nat h) 0 (fun y => iterM (Z.to_nat w) 0 (fun x =>
                   rgb_pixel (padd p (y * irs im + 3 * x)) (b, 4 * (y * w + x)))) m1;
        Ok (m2, true)
  end.

(** ui.cpp:23-41 and x11_ui.cpp:26-50: the window has an image of its own ([UiWindow::_image]) and the
    picture that _display puts on the screen ([UiWindowX11::_image], made by the constructor only;
    setImage is that of UiWindow).  [P] is the type of pictures, [picture] makes one. *)
Section WINDOW.
Context {I P : Type} (picture : I -> P).
Record x11 := mkX11 { x_base : I; x_picture : P }.
Definition x11_new (i : I) : x11 := mkX11 i (picture i).
Definition x11_setImage (i : I) (s : x11) : x11 := mkX11 i (x_picture s).
Definition x11_display (s : x11) : P := x_picture s.
Definition x11_after (i : I) (l : list I) : x11 := fold_left (fun s i => x11_setImage i s) l (x11_new i).
End WINDOW.

(** win_ui.cpp:276-291: the image fits the screen; [out] is [_image] after resize *)
Definition win_copy (m : mem) (im out : image) : res mem mem :=
  iterM (Z.to_nat (ih im)) 0 (fun y =>
    copy_bytes (u32 (iw im * icc im)) (padd (dataptr im) (u32 (irs im * u32 (ih im - 1)) - y * irs im))
               (padd (dataptr out) (y * irs out))) m.

(** win_ui.cpp:231-275: the image is larger than the screen; the size of [out], [_scaleFactor] times
    that of the image, is any size *)
Definition positionX (im out : image) (x : Z) : Z := u32 (u32 (x * iw im) / iw out * icc im).
Definition win_copy_scaled (m : mem) (im out : image) : res mem mem :=
  iterM (Z.to_nat (ih out)) 0 (fun y =>
    iterM (Z.to_nat (iw out)) 0 (fun x =>
      copy_bytes (icc im)
        (padd (padd (dataptr im) (u32 (u32 (u32 (ih im - 1) - u32 (y * ih im) / ih out) * irs im))) (positionX im out x))
        (padd (dataptr out) (y * irs out + x * icc im)))) m.
