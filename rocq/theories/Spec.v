(** Specification vocabulary: what a pixel is, when an image is well formed, when a
    region of interest lies inside an image.  Nothing here refers to the model of the code;
    all arithmetic is unbounded. *)
From Coq Require Import ZArith List Bool.
From Verif Require Import Base Image.
Import ListNotations.
Open Scope Z_scope.

(** Address of the first sample of the image. *)
Definition ibase (im : image) : ptr :=
  match idata im with Some p => p | None => (0, 0) end.

(** Address of channel [c] of pixel ([x],[y]). *)
Definition px (im : image) (x y c : Z) : ptr :=
  (fst (ibase im), snd (ibase im) + y * irs im + x * icc im + c).

(** Value of channel [c] of pixel ([x],[y]) in memory [m]. *)
Definition pixel (m : mem) (im : image) (x y c : Z) : Z := get m (px im x y c).

(** A well-formed non-empty image in memory [m]: 1, 3 or 4 channels, rows long enough for
    their samples, all rows inside its memory block, fewer than 2^32 samples. *)
Record wf (m : mem) (im : image) : Prop := mkWf {
  wf_data : idata im <> None;
  wf_w : 0 < iw im;
  wf_h : 0 < ih im;
  wf_cc : icc im = 1 \/ icc im = 3 \/ icc im = 4;
  wf_rs : iw im * icc im <= irs im;
  wf_size : ih im * irs im < W32;
  wf_lo : 0 <= snd (ibase im);
  wf_hi : snd (ibase im) + ih im * irs im <= len m (fst (ibase im))
}.

(** The region [x,x+w) x [y,y+h) is not empty and lies inside the image. *)
Record roi_in (im : image) (x y w h : Z) : Prop := mkRoi {
  roi_x : 0 <= x;
  roi_y : 0 <= y;
  roi_w : 0 < w;
  roi_h : 0 < h;
  roi_xw : x + w <= iw im;
  roi_yh : y + h <= ih im
}.

(** The samples of the image are bytes. *)
Definition bytes (m : mem) (im : image) : Prop :=
  forall x y c, 0 <= x < iw im -> 0 <= y < ih im -> 0 <= c < icc im ->
    0 <= pixel m im x y c < 256.

(** Position ([i],[j],[c]) inside a [w] x [h] region with [cc] channels. *)
Definition inside (w h cc i j c : Z) : Prop := 0 <= i < w /\ 0 <= j < h /\ 0 <= c < cc.

(** Two regions of the same size and channel count share memory at most at equal
    positions: they are disjoint, or one and the same region of one image. *)
Definition no_hazard (a : image) (xa ya : Z) (b : image) (xb yb w h : Z) : Prop :=
  forall i j c i' j' c',
    inside w h (icc a) i j c -> inside w h (icc b) i' j' c' ->
    px a (xa + i) (ya + j) c = px b (xb + i') (yb + j') c' ->
    i = i' /\ j = j' /\ c = c'.

(** Two regions share no memory. *)
Definition disjoint (a : image) (xa ya wa ha : Z) (b : image) (xb yb wb hb : Z) : Prop :=
  forall i j c i' j' c',
    inside wa ha (icc a) i j c -> inside wb hb (icc b) i' j' c' ->
    px a (xa + i) (ya + j) c <> px b (xb + i') (yb + j') c'.

(** Only samples of the region may have changed from [m] to [m']; no memory was allocated
    or freed. *)
Definition only_roi_changed (m m' : mem) (im : image) (x y w h : Z) : Prop :=
  (forall b, len m' b = len m b) /\
  forall p, (forall i j c, inside w h (icc im) i j c -> p <> px im (x + i) (y + j) c) ->
            get m' p = get m p.

(** The result of a one-output function: the call returns, the region of [out] holds
    [val i j c], nothing else changed. *)
Definition writes {E} (r : res E mem) (m : mem) (out : image) (x y w h : Z)
    (val : Z -> Z -> Z -> Z) : Prop :=
  exists m', r = Ok m' /\
    (forall i j c, inside w h (icc out) i j c -> pixel m' out (x + i) (y + j) c = val i j c) /\
    only_roi_changed m m' out x y w h.

(** Exact sum of [f k] for 0 <= k < n. *)
Fixpoint sumn (n : nat) (f : Z -> Z) : Z :=
  match n with O => 0 | S n' => sumn n' f + f (Z.of_nat n') end.
Definition zsum (n : Z) (f : Z -> Z) : Z := sumn (Z.to_nat n) f.

(** Number of [k], 0 <= k < n, for which [P k] holds. *)
Definition zcount (n : Z) (P : Z -> bool) : Z := zsum n (fun k => if P k then 1 else 0).

(** The result of a function with three outputs of the same region size. *)
Definition writes3 {E} (r : res E mem) (m : mem) (o1 : image) (x1 y1 : Z) (o2 : image) (x2 y2 : Z)
    (o3 : image) (x3 y3 w h : Z) (v1 v2 v3 : Z -> Z -> Z) : Prop :=
  exists m', r = Ok m' /\
    (forall i j, inside w h 1 i j 0 ->
       pixel m' o1 (x1 + i) (y1 + j) 0 = v1 i j /\
       pixel m' o2 (x2 + i) (y2 + j) 0 = v2 i j /\
       pixel m' o3 (x3 + i) (y3 + j) 0 = v3 i j) /\
    (forall b, len m' b = len m b) /\
    (forall p, (forall i j, inside w h 1 i j 0 ->
                 p <> px o1 (x1 + i) (y1 + j) 0 /\ p <> px o2 (x2 + i) (y2 + j) 0 /\
                 p <> px o3 (x3 + i) (y3 + j) 0) -> get m' p = get m p).

(** A region of a well-formed image. *)
Definition area (m : mem) (im : image) (x y w h : Z) : Prop := wf m im /\ roi_in im x y w h.

(** What the documentation calls valid arguments for one image: it is not empty, has 1, 3
    or 4 channels and the region lies inside it. *)
Definition valid_arg (im : image) (x y w h : Z) : Prop :=
  idata im <> None /\ (icc im = 1 \/ icc im = 3 \/ icc im = 4) /\ roi_in im x y w h.

(** Width and height are uint32_t values, as is every start coordinate and size. *)
Definition u32_image (im : image) : Prop := 0 <= iw im < W32 /\ 0 <= ih im < W32.
Definition is_u32 (z : Z) : Prop := 0 <= z < W32.

(** The call was rejected: an exception left the function and the memory is as before. *)
Definition rejected {A} (r : res mem A) (m : mem) : Prop := r = Throw m.
