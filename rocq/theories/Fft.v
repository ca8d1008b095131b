(** Model of the Fourier transform classes ComplexData and FFTExecutor, src/fft.cpp,
    src/math/fft_base.h and src/math/fft_base.cpp, and of kiss_fftnd,
    src/thirdparty/kissfft/kiss_fftnd.c, for two dimensions.  Definitions only.

    The number type is an argument; the code uses float ([ieee FLOAT]).  Allocation never
    fails.  The first component of a pair is the field r of kiss_fft_cpx, the second one the
    field i. *)
From Coq Require Import ZArith List Bool Reals.
From Verif Require Import Base Image ImgFun Double Edge Filter Arith.
Import ListNotations.
Open Scope Z_scope.

Section FFT.
Context (A : arith).
Definition cpx : Type := (carrier A * carrier A)%type.

(** Arrays allocated for _data, by block number; a released block has no elements. *)
Definition heap : Type := Z -> arr cpx.
Definition hset (h : heap) (b : Z) (a : arr cpx) : heap := fun b' => if b' =? b then a else h b'.

(** fft_base.h:114-117, the fields of BaseComplexData *)
Record cdata := mkC { cblk : option Z; cw : Z; ch : Z }.
(** fft_base.h:52-56 *)
Definition cnull : cdata := mkC None 0 0.

Definition block_of (h : heap) (c : cdata) : arr cpx :=
  match cblk c with Some b => h b | None => mkArr 0 (fun _ => (aZ A 0, aZ A 0)) end.
Definition put_block (h : heap) (c : cdata) (a : arr cpx) : heap :=
  match cblk c with Some b => hset h b a | None => h end.

(** fft_base.h:121-130, _clean *)
Definition cclean (h : heap) (c : cdata) : heap * cdata :=
  (put_block h c (mkArr 0 (fun _ => (aZ A 0, aZ A 0))), cnull).

(** fft.cpp:128-131: [size] elements in the new block [b], whose contents are [junk] *)
Definition callocate (h : heap) (b : Z) (junk : Z -> cpx) (size : Z) : heap :=
  hset h b (mkArr size junk).

(** fft_base.h:74-86.  The number of elements is a uint32_t product. *)
Definition cresize (h : heap) (c : cdata) (w hh : Z) (b : Z) (junk : Z -> cpx) : heap * cdata :=
  if (negb (cw c =? w) || negb (ch c =? hh)) && negb (w =? 0) && negb (hh =? 0) then
    let '(h, c) := cclean h c in
    (callocate h b junk (u32 (w * hh)), mkC (Some b) w hh)
  else (h, c).

(** fft.cpp:54-85.  The state of the loops is the index of [out] in _data and the array. *)
Definition cset_image (h : heap) (c : cdata) (m : mem) (im : image) (b : Z) (junk : Z -> cpx)
    : res (heap * cdata) (heap * cdata) :=
  guard negb (iempty im) && (icc im =? 1) with (h, c);
  let '(h, c) := cclean h c in
  let h := callocate h b junk (u32 (iw im * ih im)) in
  let c := mkC (Some b) (iw im) (ih im) in
  do s <- walk (ih im) [dataptr im] [irs im] (padd (dataptr im) (u32 (ih im * irs im)))
            (fun cs s =>
               walk (iw im) cs [1] (padd (c0 cs) (iw im))
                 (fun cs s =>
                    do v <- load m (c0 cs);
                    do d <- wr (snd s) (fst s) (aZ A v, aZ A 0);
                    Ok (fst s + 1, d)) s)
            (0, block_of h c);
  Ok (put_block h c (snd s), c).

(** fft.cpp:87-100 *)
Definition cset_vector (h : heap) (c : cdata) (v : arr (carrier A)) : res heap heap :=
  guard negb ((alen v =? 0) || (cw c =? 0) || (ch c =? 0) || negb (alen v =? u32 (cw c * ch c))) with h;
  do d <- iterM (Z.to_nat (u32 (cw c * ch c))) 0
            (fun k d => do x <- rd v k; wr d k (x, aZ A 0)) (block_of h c);
  Ok (put_block h c d).

(** fft.cpp:102-126.  [pixel r size] is the value of line 121 for the real part r; the image is
    allocated in the block [ib], whose contents are [ijunk] (image_buffer.h:83-98, alignment
    1, so rowSize() is the width).  For empty data the result is an image without data. *)
Definition cget (pixel : carrier A -> Z -> res mem Z) (h : heap) (c : cdata) (m : mem) (ib : Z) (ijunk : Z -> Z)
    : res mem (mem * image) :=
  match cblk c with
  | None => Ok (m, mkImage 0 0 1 1 0 None 0)
  | Some b =>
      let m := fun b' => if b' =? ib then mkBlock (ch c * cw c) ijunk else m b' in
      let size := u32 (cw c * ch c) in
      let middleX := cw c / 2 in
      let middleY := ch c / 2 in
      do m <- iterM (Z.to_nat (ch c)) 0
                (fun inY m =>
                   let outY := if inY <? middleY then u32 (middleY + inY) else u32 (inY - middleY) in
                   let posYIn := u32 (inY * cw c) in
                   let posYOut := u32 (outY * cw c) in
                   iterM (Z.to_nat (cw c)) 0
                     (fun inX m =>
                        let outX := if inX <? middleX then u32 (middleX + inX) else u32 (inX - middleX) in
                        do z <- rd (h b) (u32 (posYIn + inX));
                        do v <- pixel (fst z) size;
                        store m (ib, u32 (posYOut + outX)) v) m) m;
      Ok (m, mkImage (cw c) (ch c) 1 1 (cw c) (Some (ib, 0)) 0)
  end.

(** fft_base.h:34-38, equalSize *)
Definition same_size (w h w' h' : Z) : bool := (w =? w') && (h =? h').

(** fft.cpp:181-201.  The operands are arrays of the heap, so that [out] may be one of the
    inputs: the real part is stored before the imaginary part is computed. *)
Definition mul_step (h : heap) (a b o : Z) (k : Z) : res heap heap :=
  do x <- rd (h a) k;
  do y <- rd (h b) k;
  do z <- rd (h o) k;
  do d <- wr (h o) k (asub A (amul A (fst x) (fst y)) (amul A (snd x) (snd y)), snd z);
  let h := hset h o d in
  do x <- rd (h a) k;
  do y <- rd (h b) k;
  do z <- rd (h o) k;
  do d <- wr (h o) k (fst z, aadd A (amul A (fst x) (snd y)) (amul A (snd x) (fst y)));
  Ok (hset h o d).
Definition complexMultiplication (h : heap) (in1 in2 out : cdata) : res heap heap :=
  guard same_size (cw in1) (ch in1) (cw in2) (ch in2) && same_size (cw in1) (ch in1) (cw out) (ch out)
        && negb (cw in1 =? 0) && negb (ch in1 =? 0) with h;
  match cblk in1, cblk in2, cblk out with
  | Some a, Some b, Some o =>
      iterM (Z.to_nat (u32 (cw in1 * ch in1))) 0 (fun k h => mul_step h a b o k) h
  | _, _, _ => UB
  end.

(** ** Transforms *)

(** A plan of kiss_fftnd for the two dimensions dims[0] and dims[1].  [fft1 inverse n x] is
    the one-dimensional transform of the [n] numbers [x] computed by kiss_fft_stride. *)
Context (fft1 : bool -> Z -> (Z -> cpx) -> (Z -> cpx)).

(** kiss_fftnd.c:178-182 for one dimension: kiss_fft_stride( state, bufin + i, bufout + i *
    curdim, stride ) reads the elements bufin[i + s * stride] and writes bufout[i * curdim + t].
    The buffers are different. *)
Definition stage (inverse : bool) (curdim stride : Z) (bufin bufout : arr cpx) : res heap (arr cpx) :=
  iterM (Z.to_nat stride) 0
    (fun i out =>
       do _ <- iterM (Z.to_nat curdim) 0 (fun s _ => do _ <- rd bufin (i + s * stride); Ok tt) tt;
       iterM (Z.to_nat curdim) 0
         (fun t out => wr out (i * curdim + t) (fft1 inverse curdim (fun s => aget bufin (i + s * stride)) t)) out)
    bufout.

(** kiss_fftnd.c:161-193 for two dimensions: the first stage writes to the temporary buffer
    of dimprod elements, the second one to fout.  [tmp] is what the buffer held before. *)
Definition kiss_fftnd (inverse : bool) (d0 d1 : Z) (tmp : Z -> cpx) (fin fout : arr cpx) : res heap (arr cpx) :=
  do t <- stage inverse d0 (d0 * d1 / d0) fin (mkArr (d0 * d1) tmp);
  stage inverse d1 (d0 * d1 / d1) t fout.

(** fft_base.cpp:33-42, fft.cpp:143-148 and 203-208: an executor is its size; creating one for
    an empty size throws, and the product of the dimensions is computed in int
    (kiss_fftnd.c:36-41). *)
Definition executor (w h : Z) : res unit (Z * Z) :=
  guard negb ((w =? 0) || (h =? 0)) with tt;
  if (w <=? 2147483647) && (h <=? 2147483647) && (w * h <=? 2147483647) then Ok (w, h) else UB.

(** fft.cpp:155-179, directTransform and inverseTransform; the form with one argument has
    [inp] = [out].  The output array may be the input array: kiss_fftnd has read all of it
    before the first write. *)
Definition transform (inverse : bool) (e : Z * Z) (tmp : Z -> cpx) (h : heap) (inp out : cdata) : res heap heap :=
  guard same_size (fst e) (snd e) (cw inp) (ch inp) && same_size (cw inp) (ch inp) (cw out) (ch out) with h;
  match cblk inp, cblk out with
  | Some a, Some o => do d <- kiss_fftnd inverse (fst e) (snd e) tmp (h a) (h o); Ok (hset h o d)
  | _, _ => UB
  end.

End FFT.
Arguments cpx A : clear implicits.

(** fft.cpp:121 in float: the division is in float, the sum in double; [junk] says what
    happens to a value outside the range of uint8_t. *)
Definition float_pixel (junk : num -> res mem Z) (r : num) (size : Z) : res mem Z :=
  cast_to 256 junk (dadd (tdiv FLOAT r (tofZ FLOAT size)) dhalf).

(** The same in exact arithmetic. *)
Definition trunc_R (x : R) : Z := if Rle_dec 0 x then up x - 1 else - (up (- x) - 1).
Definition exact_pixel (junk : R -> res mem Z) (r : R) (size : Z) : res mem Z :=
  let z := trunc_R (r / IZR size + / 2) in
  if (0 <=? z) && (z <? 256) then Ok z else junk r.
