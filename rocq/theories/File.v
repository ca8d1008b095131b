(** Model of bitmap and raw image files, src/file/bmp_image.cpp and src/file/raw_image.h.
    Definitions only.  Not modelled: the name of the file and failures of the file system
    (the file can be opened, every write succeeds), running out of memory, and the alignment of
    the header fields in get_value (bmp_image.cpp:71-76 reads them through a cast pointer). *)
From Coq Require Import ZArith List Bool.
From Verif Require Import Base Image ImgFun Container.
Import ListNotations.
Open Scope Z_scope.

(** The contents of a file: a block of bytes. *)
Definition file : Type := block.
Definition append (f : file) (n : Z) (g : Z -> Z) : file :=
  mkBlock (blen f + n) (fun o => if o <? blen f then bget f o else g (o - blen f)).
Definition append_list (f : file) (l : list Z) : file :=
  append f (Z.of_nat (length l)) (fun o => nth (Z.to_nat o) l 0).
Definition no_bytes : file := mkBlock 0 (fun _ => 0).

(** [n] bytes from [p] on are inside their block. *)
Definition range_ok (m : mem) (p : ptr) (n : Z) : bool :=
  (n <=? 0) || (0 <=? snd p) && (snd p + n <=? len m (fst p)).
(** Set [n] bytes from [p] on. *)
Definition blit {E} (m : mem) (p : ptr) (n : Z) (g : Z -> Z) : res E mem :=
  if range_ok m p n then
    Ok (fun b => if b =? fst p
                 then mkBlock (blen (m b)) (fun o => if (snd p <=? o) && (o <? snd p + n) then g (o - snd p) else bget (m b) o)
                 else m b)
  else UB.
(** memcpy *)
Definition copy_range {E} (m : mem) (d s : ptr) (n : Z) : res E mem :=
  if overlaps d s n then UB
  else if range_ok m s n then blit m d n (fun i => get m (padd s i)) else UB.
(** ostream::write of [n] bytes from [p] on *)
Definition emit {E} (m : mem) (p : ptr) (n : Z) (f : file) : res E file :=
  if range_ok m p n then Ok (append f n (fun i => get m (padd p i))) else UB.

(** An input stream: position and failbit; istream::read stores what there is and sets the
    failbit at the end of the file; with the failbit set it does nothing. *)
Record stream := mkStream { spos : Z; sfail : bool }.
Definition sread {E} (f : file) (m : mem) (p : ptr) (n : Z) (s : stream) : res E (mem * stream) :=
  if sfail s then Ok (m, s)
  else
    let k := Z.min n (blen f - spos s) in
    do m <- blit m p k (fun i => bget f (spos s + i));
    Ok (m, mkStream (spos s + k) (k <? n)).

(** bmp_image.cpp:456-468, 482-494 and raw_image.h:52-65: read [total] bytes by blocks of 4 MB.
    State: what is left to read, what has been read, memory, stream. *)
Definition blockSize : Z := 4194304.
Record reading := mkReading { rleft : Z; rdone : Z; rmem : mem; rstream : stream }.
Definition read_blocks {E} (f : file) (m : mem) (p : ptr) (total : Z) (s : stream) : res E (mem * stream) :=
  do r <- loop (fuel_of (total / blockSize + 1)) (fun r => 0 <? rleft r)
            (fun r =>
               let n := if blockSize <? rleft r then blockSize else rleft r in
               do ms <- sread f (rmem r) (padd p (rdone r)) n (rstream r);
               Ok (mkReading (rleft r - n) (rdone r + n) (fst ms) (snd ms)))
            (mkReading total 0 m s);
  Ok (rmem r, rstream r).

(** ** Bitmap files *)

(** Little endian numbers; the bytes of a file are read as they are. *)
Fixpoint le (f : Z -> Z) (o : Z) (n : nat) : Z :=
  match n with
  | O => 0
  | S n' => f o + 256 * le f (o + 1) n'
  end.
Fixpoint le_bytes (n : nat) (v : Z) : list Z :=
  match n with
  | O => []
  | S n' => v mod 256 :: le_bytes n' (v / 256)
  end.

(** Conversion of uint32_t to int32_t *)
Definition signed32 (v : Z) : Z := if v <? 2147483648 then v else v - W32.

(** bmp_image.cpp:30 *)
Definition BITMAP_ALIGNMENT : Z := 4.

(** bmp_image.cpp:54-68; the loop runs 256 times *)
Definition gray_palette : list Z := flat_map (fun i => [Z.of_nat i; Z.of_nat i; Z.of_nat i; 0]) (seq 0 256).

(** bmp_image.cpp:125-146: what Load needs of a dib header; [dinvalid] is the result of
    validate() *)
Record dib := mkDib { dwidth : Z; dheight : Z; dcc : Z; dsize : Z; dflipped : bool; dinvalid : bool }.

Definition right_bits (bits : Z) : bool := (bits =? 8) || (bits =? 24) || (bits =? 32).

(** bmp_image.cpp:148-236, BitmapCoreHeader: set() from the bytes from 14 on, then the getters;
    [offBits] is bfOffBits of the file header *)
Definition core_header (f : file) (offBits : Z) : dib :=
  let bcSize := le (bget f) 14 4 in
  let w := le (bget f) 18 2 in
  let h := le (bget f) 20 2 in
  let planes := le (bget f) 22 2 in
  let bits := le (bget f) 24 2 in
  mkDib w h (u8 (bits / 8)) 12 true
    (negb (right_bits bits) || (w =? 0) || (h =? 0) || negb (bcSize =? 12) || negb (planes =? 1)
     || (offBits <? 12 + 14)).

(** bmp_image.cpp:238-371, BitmapInfoHeader; the negation of the smallest int32_t (287) is
    undefined *)
Definition info_header {E} (f : file) (offBits : Z) : res E dib :=
  let biSize := le (bget f) 14 4 in
  let biWidth := signed32 (le (bget f) 18 4) in
  let height := signed32 (le (bget f) 22 4) in
  let planes := le (bget f) 26 2 in
  let bits := le (bget f) 28 2 in
  let sizeImage := le (bget f) 34 4 in
  if height =? -2147483648 then UB else
  let biHeight := if height <? 0 then - height else height in
  let w := u32 biWidth in
  let h := u32 biHeight in
  let cc := u8 (bits / 8) in
  let rowSize := row_size w cc BITMAP_ALIGNMENT in
  Ok (mkDib w h cc 40 (negb (height <? 0))
    (negb (right_bits bits) || (biWidth <=? 0) || (biHeight <=? 0) || negb (biSize =? 40)
     || negb (sizeImage =? u32 (rowSize * h)) && negb (sizeImage =? 0) || negb (planes =? 1)
     || (offBits <? 40 + 14))).

(** bmp_image.cpp:373-383 and 428-438 *)
Definition dib_header {E} (f : file) (offBits : Z) : res E (option dib) :=
  let size := le (bget f) 14 4 in
  if size =? 12 then Ok (Some (core_header f offBits))
  else if size =? 40 then do d <- info_header f offBits; Ok (Some d)
  else Ok None.

(** bmp_image.cpp:32-52, flipData *)
Definition flipData (m : mem) (im : image) : res mem mem :=
  match idata im with
  | None => Ok m
  | Some data =>
      if ih im <? 2 then Ok m else
      let rs := irs im in
      do s <- iterM (Z.to_nat (ih im / 2)) 0
        (fun _ s =>
           let '(m, start, end_) := s in
           if range_ok m start rs then
             let temp := fun i => get m (padd start i) in
             do m <- copy_range m start end_ rs;
             do m <- blit m end_ rs temp;
             Ok (m, padd start rs, padd end_ (- rs))
           else UB)
        (m, data, padd data (u32 (rs * u32 (ih im - 1))));
      Ok (fst (fst s))
  end.

(** bmp_image.cpp:503-515: one row of a 256 colour image; [pm] holds the palette *)
Record expanding := mkExp { xin : ptr; xout : ptr; xmem : mem; xdone : bool }.
Definition expand_row (pm : mem) (m : mem) (inY outY : ptr) (w : Z) : res mem mem :=
  do s <- loop (fuel_of w) (fun s => negb (xdone s))
    (fun s =>
       do v <- load (xmem s) (xin s);
       do a <- load pm (0, v * 4);
       do m <- store (xmem s) (xout s) a;
       do b <- load pm (0, v * 4 + 1);
       do m <- store m (padd (xout s) 1) b;
       do c <- load pm (0, v * 4 + 2);
       do m <- store m (padd (xout s) 2) c;
       Ok (mkExp (padd (xin s) (-1)) (padd (xout s) (-3)) m (ptr_eqb (xin s) inY)))
    (mkExp (padd inY (u32 (w - 1))) (padd outY (u32 (3 * u32 (w - 1)))) m false);
  Ok (xmem s).

(** bmp_image.cpp:498-516 *)
Definition expand (pm m : mem) (data : ptr) (rowSize outSize w h : Z) : res mem mem :=
  walk h [padd data (u32 (rowSize * u32 (h - 1))); padd data (u32 (outSize * u32 (h - 1)))]
    [- rowSize; - outSize] data
    (fun cs m => expand_row pm m (c0 cs) (c1 cs) w) m.

(** image_buffer.h:38-45 with 337-356: Image( w, h, cc, 4 ) in the new block [nb] with contents
    [junk]; the sizes are positive here *)
Definition new_image (m : mem) (nb : Z) (junk : Z -> Z) (w h cc al : Z) : mem * image :=
  let rs := row_size w cc al in
  (fun b => if b =? nb then mkBlock (h * rs) junk else m b,
   mkImage w h cc al rs (Some (nb, 0)) 0).
Definition no_image : image := mkImage 0 0 1 1 0 None 0.

(** bmp_image.cpp:443-523, after the headers have been accepted *)
Definition load_data (f : file) (m : mem) (nb : Z) (junk : Z -> Z) (offBits : Z) (d : dib) : res mem (mem * image) :=
  let rowSize := row_size (dwidth d) (dcc d) BITMAP_ALIGNMENT in
  if negb (blen f =? u32 (offBits + u32 (rowSize * dheight d))) then Ok (m, no_image) else
  let paletteSize := u32 (offBits - dsize d - 14) in
  do ps <- read_blocks f (fun _ => mkBlock paletteSize (fun _ => 0)) (0, 0) paletteSize (mkStream (14 + dsize d) false);
  let '(pm, s) := ps in
  let convert := (0 <? paletteSize) && (paletteSize =? 1024) && (dcc d =? 1)
                 && negb (forallb (fun k => get pm (0, Z.of_nat k) =? nth k gray_palette 0) (seq 0 1024)) in
  let cc := if convert then 3 else dcc d in
  let '(m, im) := new_image m nb junk (dwidth d) (dheight d) cc BITMAP_ALIGNMENT in
  do ms <- read_blocks f m (nb, 0) (rowSize * dheight d) s;
  do m <- (if convert then expand pm (fst ms) (nb, 0) rowSize (irs im) (dwidth d) (dheight d) else Ok (fst ms));
  do m <- (if dflipped d then flipData m im else Ok m);
  Ok (m, im).

(** bmp_image.cpp:385-524, Load.  sizeof( BitmapFileHeader ) is 20, sizeof( BitmapInfoHeader )
    with its virtual table pointer is 56 (399); the reads of the headers stay in the first 54
    bytes of the file. *)
Definition BmpLoad (f : file) (m : mem) (nb : Z) (junk : Z -> Z) : res mem (mem * image) :=
  if blen f <? 20 + 56 then Ok (m, no_image) else
  let bfType := le (bget f) 0 2 in
  let offBits := le (bget f) 10 4 in
  if negb (bfType =? 19778) || (blen f <=? offBits) then Ok (m, no_image) else
  do d <- dib_header f offBits;
  match d with
  | None => Ok (m, no_image)
  | Some d => if dinvalid d then Ok (m, no_image) else load_data f m nb junk offBits d
  end.

(** bmp_image.cpp:114-122 and 295-309: the headers written by Save *)
Definition file_header (bfSize offBits : Z) : list Z :=
  le_bytes 2 19778 ++ le_bytes 4 bfSize ++ le_bytes 2 0 ++ le_bytes 2 0 ++ le_bytes 4 offBits.
Definition dib_bytes (w h cc imageSize : Z) : list Z :=
  le_bytes 4 40 ++ le_bytes 4 w ++ le_bytes 4 h ++ le_bytes 2 1 ++ le_bytes 2 (u16 (cc * 8)) ++
  le_bytes 4 0 ++ le_bytes 4 imageSize ++ le_bytes 4 0 ++ le_bytes 4 0 ++ le_bytes 4 0 ++ le_bytes 4 0.

(** bmp_image.cpp:536-604, Save.  The four bytes of [zero] are the source of the padding. *)
Definition BmpSave (m : mem) (im : image) (x y w h : Z) : res mem file :=
  guard valid_roi im x y w h with m;
  let cc := icc im in
  let palette := if cc =? 1 then gray_palette else [] in
  let paletteSize := Z.of_nat (length palette) in
  let lineLength := row_size w cc BITMAP_ALIGNMENT in
  let offBits := u32 (14 + 40 + paletteSize) in
  let bfSize := u32 (14 + 40 + paletteSize + u32 (lineLength * h)) in
  let f := append_list no_bytes (file_header bfSize offBits) in
  let f := append_list f (dib_bytes w h cc (u32 (lineLength * h))) in
  let f := append_list f palette in
  let rs := irs im in
  let imageY := row_ptr im x (u32 (u32 (y + h) - 1)) cc in
  let imageLineSize := w * cc in
  let diff := lineLength - imageLineSize in
  do s <- iterM (Z.to_nat h) 0
    (fun _ s =>
       let '(f, p) := s in
       do f <- emit m p imageLineSize f;
       if (0 <=? diff) && (diff <=? 4) then Ok (append f diff (fun _ => 0), padd p (- rs)) else UB)
    (f, imageY);
  Ok (fst s).
Definition BmpSave1 (m : mem) (im : image) : res mem file := BmpSave m im 0 0 (iw im) (ih im).

(** ** Raw files *)

(** An element of [sz] bytes in memory: its bytes, lowest first, and back *)
Definition byte_of (v k : Z) : Z := v / 256 ^ k mod 256.

(** raw_image.h:70-99, Save: sizeof( T ) * rowSize * height bytes (size_t) from data() on.  The
    blocks of 4 MB follow each other, so the file is one run of bytes. *)
Definition RawSave (sz : Z) (m : mem) (im : image) : res mem file :=
  guard valid_image im with m;
  let n := irs im * ih im in
  if range_ok m (dataptr im) n then
    Ok (append no_bytes (sz * n) (fun o => byte_of (get m (padd (dataptr im) (o / sz))) (o mod sz)))
  else UB.

(** raw_image.h:28-68, Load.  The elements are filled when the file has all the bytes, which the
    test of the length ensures. *)
Definition RawLoad (sz : Z) (f : file) (m : mem) (nb : Z) (junk : Z -> Z) (w h cc : Z) : res mem (mem * image) :=
  guard negb ((w =? 0) || (h =? 0) || (cc =? 0)) with m;
  let overall := u32 (u32 (u32 (w * h) * cc) * sz) in
  if negb (blen f =? overall) then Ok (m, no_image) else
  let '(m, im) := new_image m nb junk w h cc 1 in
  do m <- blit m (nb, 0) (overall / sz) (fun i => le (bget f) (i * sz) (Z.to_nat sz));
  Ok (m, im).

(** raw_image.h:112-118: swap the bytes of one element, from both ends inwards *)
Fixpoint swap_ends (n : nat) (left right : nat) (l : list Z) : list Z :=
  match n with
  | O => l
  | S n' =>
      if (left <? right)%nat then
        let a := nth left l 0 in
        let b := nth right l 0 in
        let put i v (l : list Z) := firstn i l ++ v :: skipn (S i) l in
        swap_ends n' (S left) (pred right) (put right a (put left b l))
      else l
  end.
Definition swap_value (sz v : Z) : Z :=
  let n := Z.to_nat sz in
  let l := swap_ends n 0 (pred n) (le_bytes n v) in
  le (fun i => nth (Z.to_nat i) l 0) 0 n.

(** raw_image.h:101-120 *)
Definition LittleEndianToBigEndian (sz : Z) (m : mem) (im : image) : res mem mem :=
  guard valid_image im with m;
  if sz <? 2 then Ok m else
  let data := dataptr im in
  walk (irs im * ih im) [data] [1] (padd data (u32 (irs im * ih im)))
    (fun cs m => do v <- load m (c0 cs); store m (c0 cs) (swap_value sz v)) m.
