(** Model of src/file/file_image.cpp, src/file/png_image.cpp and src/file/jpeg_image.cpp.
    Definitions only.  libpng and libjpeg are oracles (record [libs]): what a file decodes to,
    what file they make of rows of samples.  Errors that they report end the process: the code
    installs no error handler, libpng then calls abort() and libjpeg exit().
    Not modelled: running out of memory, names with a NUL character, failures of write
    operations, the memory of the libraries, devices other than the CPU. *)
From Coq Require Import ZArith List Bool.
From Verif Require Import Base Image ImgFun Container File.
Import ListNotations.
Open Scope Z_scope.

(** A file name: its characters. *)
Definition name : Type := list Z.
Definition name_eqb (a b : name) : bool := if list_eq_dec Z.eq_dec a b then true else false.

(** What libpng finds in a file: the header and the colour of every pixel, 8 bits a channel
    (0 red, 1 green, 2 blue, 3 alpha).  The colour types are those of png.h. *)
Record png := mkPng { gw : Z; gh : Z; gtype : Z; gdepth : Z; gtrns : bool; gpix : Z -> Z -> Z -> Z }.
Definition PNG_GRAY : Z := 0.
Definition PNG_RGB : Z := 2.
Definition PNG_PALETTE : Z := 3.
Definition PNG_GRAY_ALPHA : Z := 4.
Definition PNG_RGB_ALPHA : Z := 6.
(** What libjpeg finds in a file: sizes, number of components, samples of every pixel (red,
    green, blue for three components). *)
Record jpg := mkJpg { jw : Z; jh : Z; jcomp : Z; jpix : Z -> Z -> Z -> Z }.

Record libs := mkLibs {
  pngOn : bool;    (** PENGUINV_ENABLED_PNG_SUPPORT *)
  jpegOn : bool;   (** PENGUINV_ENABLED_JPEG_SUPPORT *)
  pngMax : Z;      (** the largest width and height libpng accepts *)
  pngDec : file -> option png;
  pngEnc : Z -> Z -> bool -> list (list Z) -> file;   (** width, height, gray?, rows *)
  jpgDec : file -> option jpg;
  jpgEnc : Z -> Z -> Z -> Z -> list (list Z) -> file  (** width, height, components, quality, rows *)
}.
(** What the system does in one call: can the file be opened, are the structures made. *)
Record luck := mkLuck { canOpen : bool; okStruct : bool; okInfo : bool }.

(** The files, the number of files that are open, jpegQuality (jpeg_image.cpp:27), the images. *)
Record world := mkWorld { wfs : name -> option file; wopen : Z; wquality : Z; wc : cstate }.
(** How a call may end other than by returning: a C++ exception, the end of the process. *)
Inductive leave := Exn (w : world) | Ended (w : world).

Definition set_c (w : world) (c : cstate) : world := mkWorld (wfs w) (wopen w) (wquality w) c.
Definition set_open (w : world) (n : Z) : world := mkWorld (wfs w) n (wquality w) (wc w).
Definition set_file (w : world) (p : name) (f : file) : world :=
  mkWorld (fun q => if name_eqb q p then Some f else wfs w q) (wopen w) (wquality w) (wc w).
Definition lift {A} (w : world) (r : res cstate A) : res leave A :=
  match r with Ok a => Ok a | Throw c => Throw (Exn (set_c w c)) | UB => UB | Timeout => Timeout end.
Definition lift_mem {A} (w : world) (r : res mem A) : res leave A :=
  match r with
  | Ok a => Ok a
  | Throw m => Throw (Exn (set_c w (mkC (cim (wc w)) m (clive (wc w)) (cnext (wc w)))))
  | UB => UB
  | Timeout => Timeout
  end.

(** fopen( path, "rb" ): the contents, with the file open *)
Definition open_read (u : luck) (w : world) (p : name) : option (world * file) :=
  if canOpen u then
    match wfs w p with Some f => Some (set_open w (wopen w + 1), f) | None => None end
  else None.
(** fopen( path, "wb" ): the file is there and empty *)
Definition open_write (u : luck) (w : world) (p : name) : option world :=
  if canOpen u then Some (set_open (set_file w p no_bytes) (wopen w + 1)) else None.
(** fclose *)
Definition fclose (w : world) : world := set_open w (wopen w - 1).

(** raw = Load( path ), image_buffer.h:64-69: the fields are swapped, then the temporary, which
    has the old memory of [a], is destroyed.  [m], [new]: memory and image made by Load in the
    next block. *)
Definition move_in (c : cstate) (a : Z) (m : mem) (new : image) : res cstate cstate :=
  match cim c a with
  | None => UB
  | Some old =>
      let c := match idata new with
               | Some _ => mkC (cim c) m (fun b => if b =? cnext c then true else clive c b) (cnext c + 1)
               | None => mkC (cim c) m (clive c) (cnext c)
               end in
      do c <- (match idata old with Some p => dealloc c p | None => Ok c end);
      Ok (set_img c a (Some new))
  end.

(** ** PNG *)

(** The transformations of libpng that Load asks for (png_image.cpp:90-108). *)
Record xforms := mkX { xStrip16 : bool; xPalette : bool; xExpandGray : bool; xTrns : bool; xFiller : bool; xGrayRgb : bool }.
Definition png_xforms (g : png) : xforms :=
  let t := gtype g in
  mkX (gdepth g =? 16) (t =? PNG_PALETTE) ((t =? PNG_GRAY) && (gdepth g <? 8)) (gtrns g)
    ((t =? PNG_RGB) || (t =? PNG_GRAY) || (t =? PNG_PALETTE)) ((t =? PNG_GRAY) || (t =? PNG_GRAY_ALPHA)).

(** The layout of the rows that libpng delivers (the documentation of libpng; png_set_palette_to_rgb
    and png_set_tRNS_to_alpha both make an alpha channel of a tRNS chunk). *)
Record fmt := mkFmt { fPalette : bool; fColor : bool; fFourth : bool; fDepth : Z }.
Definition png_format (g : png) (x : xforms) : fmt :=
  let t := gtype g in
  let f0 := mkFmt (t =? PNG_PALETTE) ((t =? PNG_RGB) || (t =? PNG_RGB_ALPHA)) ((t =? PNG_GRAY_ALPHA) || (t =? PNG_RGB_ALPHA)) (gdepth g) in
  let f1 := if fPalette f0 && xPalette x then mkFmt false true (gtrns g) 8 else f0 in
  let f2 := if negb (fPalette f1) && negb (fColor f1) && (fDepth f1 <? 8) && (xExpandGray x || xTrns x)
            then mkFmt false false (fFourth f1) 8 else f1 in
  let f3 := if negb (fPalette f2) && negb (fFourth f2) && gtrns g && xTrns x then mkFmt false (fColor f2) true (fDepth f2) else f2 in
  let f4 := if (fDepth f3 =? 16) && xStrip16 x then mkFmt (fPalette f3) (fColor f3) (fFourth f3) 8 else f3 in
  let f5 := if negb (fPalette f4) && negb (fColor f4) && xGrayRgb x then mkFmt false true (fFourth f4) (fDepth f4) else f4 in
  if negb (fPalette f5) && negb (fFourth f5) && xFiller x then mkFmt false (fColor f5) true (fDepth f5) else f5.
Definition channels (f : fmt) : Z := if fPalette f then 1 else (if fColor f then 3 else 1) + (if fFourth f then 1 else 0).
(** png_get_rowbytes *)
Definition row_bytes_of (f : fmt) (w : Z) : Z := (w * channels f * fDepth f + 7) / 8.
(** png_read_image: byte [o] of row [y]; other depths than 8 do not occur *)
Definition png_byte (g : png) (f : fmt) (y o : Z) : Z :=
  if fDepth f =? 8 then
    let k := o mod channels f in
    gpix g (o / channels f) y (if fColor f then k else if k =? 1 then 3 else 0)
  else 0.

(** png_image.cpp:125-141: the rows are the blocks of [rm], row by row into the image *)
Definition png_row (rm : mem) (gray : bool) (y w : Z) (m : mem) (outY : ptr) : res mem mem :=
  do s <- iterM (Z.to_nat w) 0
    (fun _ s =>
       let '(m, column, outX) := s in
       if gray then
         do v <- load rm column;
         do m <- store m outX v;
         Ok (m, padd column 4, padd outX 1)
       else
         do b <- load rm (padd column 2);
         do m <- store m outX b;
         do g <- load rm (padd column 1);
         do m <- store m (padd outX 1) g;
         do r <- load rm column;
         do m <- store m (padd outX 2) r;
         Ok (m, padd column 4, padd outX 3))
    (m, (y, 0), outY);
  Ok (fst (fst s)).
Definition png_rows (rm : mem) (gray : bool) (w h rs : Z) (m : mem) (out : ptr) : res mem mem :=
  do s <- iterM (Z.to_nat h) 0
    (fun y s =>
       do m <- png_row rm gray y w (fst s) (snd s);
       Ok (m, padd (snd s) rs))
    (m, out);
  Ok (fst s).

(** png_image.cpp:85-141 after the header has been read: memory and image, in block [nb] *)
Definition png_image (g : png) (m : mem) (nb : Z) (junk : Z -> Z) : res mem (mem * image) :=
  let x := png_xforms g in
  let f := png_format g x in
  let rm : mem := fun y => mkBlock (row_bytes_of f (gw g)) (png_byte g f y) in
  let gray := (gtype g =? PNG_GRAY) || (gtype g =? PNG_GRAY_ALPHA) in
  let '(m, im) := new_image m nb junk (gw g) (gh g) (if gray then GRAY_SCALE else RGB) 1 in
  do m <- png_rows rm gray (gw g) (gh g) (irs im) m (dataptr im);
  Ok (m, im).

(** png_image.cpp:61-152 and 154-157, Load into the image [a]; without support 28-39 *)
Definition PngLoad (L : libs) (u : luck) (w : world) (p : name) (a : Z) : res leave world :=
  if negb (pngOn L) then Throw (Exn w) else
  match p with
  | [] => Throw (Exn w)
  | _ =>
      let c := wc w in
      let nothing w := do c <- lift w (move_in (wc w) a (cmem (wc w)) no_image); Ok (set_c w c) in
      match open_read u w p with
      | None => nothing w
      | Some (w, f) =>
          if negb (okStruct u) then nothing (fclose w)
          else if negb (okInfo u) then nothing (fclose w)
          else
            match pngDec L f with
            | None => Throw (Ended w)
            | Some g =>
                do r <- lift_mem w (png_image g (cmem c) (cnext c) (bget (cmem c (cnext c))));
                let w := fclose w in
                do c <- lift w (move_in (wc w) a (fst r) (snd r));
                Ok (set_c w c)
            end
      end
  end.

(** png_image.cpp:194-213: row [y] of the output is block [y] of [rm] *)
Definition png_out_row (m : mem) (gray : bool) (y w : Z) (rm : mem) (outY : ptr) : res mem mem :=
  do s <- iterM (Z.to_nat w) 0
    (fun _ s =>
       let '(rm, column, outX) := s in
       if gray then
         do v <- load m outX;
         do rm <- store rm column v;
         Ok (rm, padd column 1, padd outX 1)
       else
         do b <- load m outX;
         do rm <- store rm (padd column 2) b;
         do g <- load m (padd outX 1);
         do rm <- store rm (padd column 1) g;
         do r <- load m (padd outX 2);
         do rm <- store rm column r;
         Ok (rm, padd column 3, padd outX 3))
    (rm, (y, 0), outY);
  Ok (fst (fst s)).
(** [junk]: the contents of the rows after malloc *)
Definition png_out_rows (m : mem) (im : image) (gray : bool) (x y w h : Z) (junk : Z -> Z -> Z) : res mem mem :=
  let n := if gray then w else w * 3 in
  do s <- iterM (Z.to_nat h) 0
    (fun j s =>
       do rm <- png_out_row m gray j w (fst s) (snd s);
       Ok (rm, padd (snd s) (irs im)))
    (fun j => mkBlock n (junk j), row_ptr im x y (icc im));
  Ok (fst s).
(** The bytes of the first [n] elements of the first [h] blocks *)
Definition zseq (n : Z) : list Z := map Z.of_nat (seq 0 (Z.to_nat n)).
Definition rows_of (rm : mem) (n h : Z) : list (list Z) := map (fun j => map (fun o => get rm (j, o)) (zseq n)) (zseq h).

(** png_image.cpp:164-225, Save; without support 46-49 *)
Definition PngSave (L : libs) (u : luck) (w : world) (p : name) (im : image) (x y sw sh : Z) (junk : Z -> Z -> Z) : res leave world :=
  if negb (pngOn L) then Throw (Exn w) else
  if negb (valid_roi im x y sw sh) then Throw (Exn w) else
  match open_write u w p with
  | None => Throw (Exn w)
  | Some w =>
      if negb (okStruct u) then Throw (Exn w)
      else if negb (okInfo u) then Throw (Exn w)
      else
        let gray := icc im =? GRAY_SCALE in
        if (pngMax L <? sw) || (pngMax L <? sh) then Throw (Ended w) else
        do rm <- lift_mem w (png_out_rows (cmem (wc w)) im gray x y sw sh junk);
        Ok (fclose (set_file w p (pngEnc L sw sh gray (rows_of rm (if gray then sw else sw * 3) sh))))
  end.

(** ** JPEG *)

(** jpeg_image.cpp:45-56 *)
Definition SetImageQuality (w : world) (q : Z) : res leave world :=
  if (q <? 1) || (100 <? q) then Throw (Exn w) else Ok (mkWorld (wfs w) (wopen w) q (wc w)).
Definition GetImageQuality (w : world) : Z := wquality w.

(** jpeg_image.cpp:104-108: every scan line at data() + rowSize() * line, the product in 32 bits;
    libjpeg stores the samples of one line *)
Definition jpg_lines (j : jpg) (m : mem) (im : image) : res mem mem :=
  iterM (Z.to_nat (jh j)) 0
    (fun y m => blit m (padd (dataptr im) (u32 (irs im * y))) (jw j * jcomp j)
                     (fun o => jpix j (o / jcomp j) y (o mod jcomp j))) m.

(** jpeg_image.cpp:81-113, Load; without support 63-66 *)
Definition JpegLoad (L : libs) (u : luck) (w : world) (p : name) (a : Z) : res leave world :=
  if negb (jpegOn L) then Throw (Exn w) else
  match p with
  | [] => Throw (Exn w)
  | _ =>
      match open_read u w p with
      | None => Throw (Exn w)
      | Some (w, f) =>
          match jpgDec L f with
          | None => Throw (Ended w)
          | Some j =>
              let cc := if (0 <? jcomp j) && (jcomp j <? 256) then u8 (jcomp j) else 1 in
              do c <- lift w (with_img (wc w) a (fun im => setColorCount (wc w) a im cc));
              do c <- lift w (with_img c a (fun im => resize c a im (jw j) (jh j)));
              do c <- lift w (with_img c a (fun im =>
                        match jpg_lines j (cmem c) im with
                        | Ok m => Ok (mkC (cim c) m (clive c) (cnext c))
                        | _ => UB
                        end));
              Ok (fclose (set_c w c))
          end
      end
  end.

(** The limit of libjpeg on both sizes (jmorecfg.h) *)
Definition JPEG_MAX : Z := 65500.

(** jpeg_image.cpp:142-145 *)
Definition jpg_out_row (m : mem) (im : image) (w line : Z) : res mem (list Z) :=
  let row := padd (dataptr im) (u32 (irs im * line)) in
  let n := w * icc im in
  if range_ok m row n then Ok (map (fun o => get m (padd row o)) (zseq n)) else UB.
Definition jpg_out_rows (m : mem) (im : image) (w h : Z) : res mem (list (list Z)) :=
  iterM (Z.to_nat h) 0 (fun line rows => do r <- jpg_out_row m im w line; Ok (rows ++ [r])) [].

(** jpeg_image.cpp:115-152, Save; without support 68-71.  jpeg_start_compress reports an error
    when a size is too big or the components do not fit the colour space: JCS_GRAYSCALE has one,
    JCS_RGB three. *)
Definition JpegSave (L : libs) (u : luck) (w : world) (p : name) (im : image) (x y sw sh : Z) : res leave world :=
  if negb (jpegOn L) then Throw (Exn w) else
  if negb (valid_roi im x y sw sh) then Throw (Exn w) else
  match open_write u w p with
  | None => Throw (Exn w)
  | Some w =>
      let components := icc im in
      let needed := if icc im =? 1 then 1 else 3 in
      if (JPEG_MAX <? sw) || (JPEG_MAX <? sh) || negb (components =? needed) then Throw (Ended w) else
      do rows <- lift_mem w (jpg_out_rows (cmem (wc w)) im sw sh);
      Ok (fclose (set_file w p (jpgEnc L sw sh components (wquality w) rows)))
  end.

(** ** Bitmaps: bmp_image.cpp:385-392, 526-529 and 536-569 around File.v *)
Definition BmpLoadFile (u : luck) (w : world) (p : name) (a : Z) : res leave world :=
  match p with
  | [] => Throw (Exn w)
  | _ =>
      let c := wc w in
      do r <- (if canOpen u then
                 match wfs w p with
                 | Some f => lift_mem w (BmpLoad f (cmem c) (cnext c) (bget (cmem c (cnext c))))
                 | None => Ok (cmem c, no_image)
                 end
               else Ok (cmem c, no_image));
      do c <- lift w (move_in c a (fst r) (snd r));
      Ok (set_c w c)
  end.
Definition BmpSaveFile (u : luck) (w : world) (p : name) (im : image) (x y sw sh : Z) : res leave world :=
  if negb (valid_roi im x y sw sh) then Throw (Exn w) else
  if canOpen u then
    do f <- lift_mem w (BmpSave (cmem (wc w)) im x y sw sh);
    Ok (set_file w p f)
  else Throw (Exn w).

(** ** The choice by name *)

(** file_image.cpp:29-32; the comparison of characters from size() - n on *)
Definition isSameFileExtension (path ext : name) : bool :=
  (Nat.leb (length ext) (length path)) && name_eqb (skipn (length path - length ext) path) ext.
Definition dot_jpg : name := [46; 106; 112; 103].
Definition dot_jpeg : name := [46; 106; 112; 101; 103].
Definition dot_png : name := [46; 112; 110; 103].
(** file_image.cpp:35-57 *)
Definition isJpegFile (L : libs) (path : name) : bool :=
  if jpegOn L then isSameFileExtension path dot_jpg || isSameFileExtension path dot_jpeg else false.
Definition isPngFile (L : libs) (path : name) : bool :=
  if pngOn L then isSameFileExtension path dot_png else false.

(** file_image.cpp:70-83 *)
Definition FileLoad (L : libs) (u : luck) (w : world) (p : name) (a : Z) : res leave world :=
  if isJpegFile L p then JpegLoad L u w p a
  else if isPngFile L p then PngLoad L u w p a
  else BmpLoadFile u w p a.
(** file_image.cpp:90-103 and 85-88 *)
Definition FileSave (L : libs) (u : luck) (w : world) (p : name) (im : image) (x y sw sh : Z) (junk : Z -> Z -> Z) : res leave world :=
  if isJpegFile L p then JpegSave L u w p im x y sw sh
  else if isPngFile L p then PngSave L u w p im x y sw sh junk
  else BmpSaveFile u w p im x y sw sh.
Definition FileSave1 (L : libs) (u : luck) (w : world) (p : name) (im : image) (junk : Z -> Z -> Z) : res leave world :=
  FileSave L u w p im 0 0 (iw im) (ih im) junk.
