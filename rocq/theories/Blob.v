(** Model of blob detection, src/blob_detection.cpp and blob_detection.h.
    Definitions only. *)
From Coq Require Import ZArith List Bool.
From Verif Require Import Base Image ImgFun Double.
From Coq Require Import Floats.SpecFloat.
Import ListNotations.
Open Scope Z_scope.

(** blob_detection.cpp:30-37 *)
Definition EMPTY : Z := 0.
Definition NOT_IN_USE : Z := 1.
Definition FOUND : Z := 2.
Definition EDGE : Z := 3.
Definition CONTOUR : Z := 4.

(** blob_detection.h:305-310: the point arrays of a BlobInfo; the arrays of x and y coordinates, always
    extended together, are one list of pairs. *)
Record blob := mkBlob {
  bpoints : list (Z * Z);
  bedges : list (Z * Z);
  bcontour : list (Z * Z)
}.

(** blob_detection.cpp:200-201: the local image [imageMap] of (width + 2) x (height + 2) bytes
    filled with EMPTY (alignment 1, so the row size is the width).  It is a memory of its own
    with one block; the size of the allocation is computed in size_t (image_buffer.h:96).  If it
    is 0 the image is empty and every access is outside. *)
Definition new_map (w h : Z) : mem :=
  fun b => if b =? 0 then mkBlock (u32 (h + 2) * u32 (w + 2)) (fun _ => EMPTY)
           else mkBlock 0 (fun _ => 0).
Definition map_ptr (o : Z) : ptr := (0, o).

(** blob_detection.cpp:203-224: mark the pixels at or above the threshold *)
Definition mark (m : mem) (im : image) (x y w h threshold : Z) (mp : mem) : res mem mem :=
  let rs := irs im in
  let imageY := row_ptr im x y 1 in
  let mapWidth := u32 (w + 2) in
  walk h [imageY; map_ptr (mapWidth + 1)] [rs; mapWidth] (padd imageY (u32 (h * rs)))
    (fun cs mp =>
       walk w cs [1; 1] (padd (c0 cs) w)
         (fun cs mp =>
            do v <- load m (c0 cs);
            if threshold <=? v then store mp (c1 cs) NOT_IN_USE else Ok mp) mp) mp.

(** The eight neighbours in the order of the code: the step of the pointer [position] and the
    offsets of x and y (blob_detection.cpp:262-341 and 366-421). *)
Definition ring (w mapWidth : Z) : list (Z * Z * Z) :=
  [(- mapWidth - 1, -1, -1); (1, 0, -1); (1, 1, -1); (w, -1, 0); (2, 1, 0); (w, -1, 1); (1, 0, 1); (1, 1, 1)].

(** blob_detection.cpp:260 and 364: address of a point *)
Definition point_ptr (mapWidth x y : Z) (p : Z * Z) : ptr :=
  padd (map_ptr (u32 (u32 (snd p + 1 - y) * mapWidth))) (u32 (fst p + 1 - x)).
Definition neighbour (p : Z * Z) (dx dy : Z) : Z * Z := (u32 (fst p + dx), u32 (snd p + dy)).

(** blob_detection.cpp:262-341: look at the neighbours of [p]; state is the pointer, the map,
    the points and the number of neighbours *)
Fixpoint visit (l : list (Z * Z * Z)) (p : Z * Z) (pos : ptr) (mp : mem) (pts : list (Z * Z)) (count : Z)
    : res mem (ptr * mem * list (Z * Z) * Z) :=
  match l with
  | [] => Ok (pos, mp, pts, count)
  | (d, dx, dy) :: l' =>
      let pos := padd pos d in
      do v <- load mp pos;
      if v =? EMPTY then visit l' p pos mp pts count
      else if v =? NOT_IN_USE then
        do mp <- store mp pos FOUND;
        visit l' p pos mp (pts ++ [neighbour p dx dy]) (u8 (count + 1))
      else visit l' p pos mp pts (u8 (count + 1))
  end.

(** State of the loop over the points of one blob. *)
Record flood := mkFlood { fmap : mem; fpts : list (Z * Z); fid : nat; fedges : list (Z * Z) }.

(** blob_detection.cpp:254-346: one iteration *)
Definition flood_step (w mapWidth x y : Z) (s : flood) : res mem flood :=
  match nth_error (fpts s) (fid s) with
  | None => UB
  | Some p =>
      do r <- visit (ring w mapWidth) p (point_ptr mapWidth x y p) (fmap s) (fpts s) 0;
      let '(pos, mp, pts, count) := r in
      if count =? 8 then Ok (mkFlood mp pts (S (fid s)) (fedges s))
      else
        do mp <- store mp (padd pos (- 1 - mapWidth)) EDGE;
        Ok (mkFlood mp pts (S (fid s)) (fedges s ++ [p]))
  end.

(** blob_detection.cpp:366-421: the neighbours with value EDGE join the contour *)
Fixpoint trace (l : list (Z * Z * Z)) (p : Z * Z) (pos : ptr) (mp : mem) (pts : list (Z * Z))
    : res mem (mem * list (Z * Z)) :=
  match l with
  | [] => Ok (mp, pts)
  | (d, dx, dy) :: l' =>
      let pos := padd pos d in
      do v <- load mp pos;
      if v =? EDGE then
        do mp <- store mp pos CONTOUR;
        trace l' p pos mp (pts ++ [neighbour p dx dy])
      else trace l' p pos mp pts
  end.

(** blob_detection.cpp:360-421: one iteration; [fedges] is not used *)
Definition trace_step (w mapWidth x y : Z) (s : flood) : res mem flood :=
  match nth_error (fpts s) (fid s) with
  | None => UB
  | Some p =>
      do r <- trace (ring w mapWidth) p (point_ptr mapWidth x y p) (fmap s) (fpts s);
      Ok (mkFlood (fst r) (snd r) (S (fid s)) (fedges s))
  end.

(** do { ... } while ( pointId != points.size() ): the list starts with one point, so the test
    holds before the first iteration as well. *)
Definition more (s : flood) : bool := negb (Nat.eqb (fid s) (length (fpts s))).

(** blob_detection.cpp:233-423: the blob that contains the pixel at offset [o] of the map *)
Definition extract (w h mapWidth x y o : Z) (mp : mem) : res mem (mem * blob) :=
  let fuel := fuel_of (mapWidth * u32 (h + 2)) in
  let p := (u32 (o mod mapWidth + x - 1), u32 (o / mapWidth + y - 1)) in
  do mp <- store mp (map_ptr o) FOUND;
  do s <- loop fuel more (flood_step w mapWidth x y) (mkFlood mp [p] 0 []);
  do mp <- store (fmap s) (map_ptr o) CONTOUR;
  do c <- loop fuel more (trace_step w mapWidth x y) (mkFlood mp [p] 0 []);
  Ok (fmap c, mkBlob (fpts s) (fedges s) (fpts c)).

(** blob_detection.cpp:229-425: scan the map.  The end is computed in uint32_t; the fuel is the
    size of the map, beyond which the scan reads outside. *)
Definition collect (w h x y : Z) (mp : mem) : res mem (mem * list blob) :=
  let mapWidth := u32 (w + 2) in
  let endMap := u32 (u32 (w + 2) * u32 (h + 1)) in
  walk (u32 (h + 2) * mapWidth) [map_ptr mapWidth] [1] (map_ptr endMap)
    (fun cs s =>
       let '(mp, found) := s in
       do v <- load mp (c0 cs);
       if v =? NOT_IN_USE then
         do r <- extract w h mapWidth x y (snd (c0 cs)) mp;
         Ok (fst r, found ++ [snd r])
       else Ok (mp, found)) (mp, []).

(** blob_detection.h:28-70, Parameter: [None] when the limit is not checked *)
Record limits (T : Type) := mkLimits { lmin : option T; lmax : option T }.
Arguments mkLimits {T}. Arguments lmin {T}. Arguments lmax {T}.

(** blob_detection.h:43-48: true = verify() does not throw *)
Definition verify {T} (lt : T -> T -> bool) (p : limits T) : bool :=
  match lmin p, lmax p with
  | Some a, Some b => negb (lt b a)
  | _, _ => true
  end.

(** blob_detection.cpp:431-478: the condition of remove_if *)
Definition removed {T} (lt : T -> T -> bool) (p : limits T) (v : T) : bool :=
  match lmax p with Some b => lt b v | None => false end ||
  match lmin p with Some a => lt v a | None => false end.

(** blob_detection.h:72-117, BlobParameters *)
Record parameters := mkParameters {
  pcircularity : limits double; pelongation : limits double; pwidth : limits Z;
  pheight : limits Z; plength : limits double; psize : limits Z }.
Definition no_limits : parameters :=
  mkParameters (mkLimits None None) (mkLimits None None) (mkLimits None None)
               (mkLimits None None) (mkLimits None None) (mkLimits None None).

(** blob_detection.h:95-104 *)
Definition verify_all (p : parameters) : bool :=
  verify dlt (pcircularity p) && verify dlt (pelongation p) && verify Z.ltb (pheight p) &&
  verify dlt (plength p) && verify Z.ltb (psize p) && verify Z.ltb (pwidth p).

(** blob_detection.cpp:157-164 and 180-187, _getHeight and _getWidth, over the contour; the
    contour of a found blob is not empty. *)
Definition list_max (l : list Z) : Z := fold_left Z.max l (hd 0 l).
Definition list_min (l : list Z) : Z := fold_left Z.min l (hd 0 l).
Definition extent (l : list Z) : Z := u32 (list_max l - list_min l + 1).
Definition blob_width (b : blob) : Z := extent (map fst (bcontour b)).
Definition blob_height (b : blob) : Z := extent (map snd (bcontour b)).
Definition blob_size (b : blob) : Z := Z.of_nat (length (bpoints b)).


(** The C++ type int32_t: conversion of a uint32_t, and the result of a signed operation, which
    is undefined outside the range. *)
Definition s32 (v : Z) : Z := if v <? 2147483648 then v else v - W32.
Definition int32 (v : Z) : res mem Z :=
  if (-2147483648 <=? v) && (v <? 2147483648) then Ok v else UB.

(** blob_detection.cpp:57-58: the squared distance of two points *)
Definition distance (p q : Z * Z) : res mem Z :=
  let dx := s32 (u32 (fst p - fst q)) in
  let dy := s32 (u32 (snd p - snd q)) in
  do a <- int32 (dx * dx);
  do b <- int32 (dy * dy);
  int32 (a + b).

(** blob_detection.cpp:50-71: the state is the largest squared distance, [startPoint] and
    [endPoint]; note line 66, where the y of the end point is set from its x. *)
Definition farther (p q : Z * Z) (s : Z * (Z * Z) * (Z * Z)) : res mem (Z * (Z * Z) * (Z * Z)) :=
  do d <- distance p q;
  Ok (if fst (fst s) <? d then (d, p, (fst q, fst q)) else s).
Fixpoint farthest_from (p : Z * Z) (l : list (Z * Z)) (s : Z * (Z * Z) * (Z * Z)) :=
  match l with
  | [] => Ok s
  | q :: l' => do s <- farther p q s; farthest_from p l' s
  end.
Fixpoint farthest (l : list (Z * Z)) (s : Z * (Z * Z) * (Z * Z)) : res mem (Z * (Z * Z) * (Z * Z)) :=
  match l with
  | [] => Ok s
  | p :: l' => do s <- farthest_from p l' s; farthest l' s
  end.
Definition extremes (l : list (Z * Z)) : res mem (Z * (Z * Z) * (Z * Z)) := farthest l (0, (0, 0), (0, 0)).

Definition dsqrt : double -> double := SFsqrt 53 1024.

(** blob_detection.cpp:39-73 and 169-178, _getLength *)
Definition blob_length (b : blob) : res mem double :=
  do s <- extremes (bcontour b);
  Ok (dsqrt (dofZ (fst (fst s)))).

(** blob_detection.cpp:90-98, _getCenter: std::accumulate with an int accumulator; int plus
    uint32_t is computed in uint32_t and converted back. *)
Definition int_sum (l : list Z) : Z := s32 (fold_left (fun a v => u32 (a + v)) l 0).
Definition center (b : blob) : double * double :=
  (ddiv (dofZ (int_sum (map fst (bpoints b)))) (dofZ (blob_size b)),
   ddiv (dofZ (int_sum (map snd (bpoints b)))) (dofZ (blob_size b))).

(** The functions of the C library; pi is pvmath::pi = acos(-1) (math/math_base.h:28). *)
Record libm := mkLibm { l_pi : double; l_sin : double -> double; l_cos : double -> double; l_atan2 : double -> double -> double }.

(** blob_detection.cpp:100-120, _getCircularity *)
Definition blob_circularity (lm : libm) (b : blob) : res mem double :=
  let radius := dsqrt (ddiv (dofZ (blob_size b)) (l_pi lm)) in
  let c := center b in
  let far p :=
    let dx := dsub (dofZ (fst p)) (fst c) in
    let dy := dsub (dofZ (snd p)) (snd c) in
    dabs (dsub (dsqrt (dadd (dmul dx dx) (dmul dy dy))) radius) in
  let difference := fold_left (fun s p => dadd s (far p)) (bcontour b) (dofZ 0) in
  Ok (dsub (dofZ 1) (ddiv difference (dmul (dofZ (Z.of_nat (length (bcontour b)))) radius))).

(** std::max_element and std::min_element *)
Definition dmax_element (l : list double) : double := fold_left (fun a v => if dlt a v then v else a) l (hd (dofZ 0) l).
Definition dmin_element (l : list double) : double := fold_left (fun a v => if dlt v a then v else a) l (hd (dofZ 0) l).

(** blob_detection.cpp:122-155, _getElongation *)
Definition blob_elongation (lm : libm) (b : blob) : res mem double :=
  if (1 <? Z.of_nat (length (bcontour b))) then
    do s <- extremes (bcontour b);
    let '(d, p, q) := s in
    let angle := dopp (l_atan2 lm (dofZ (u32 (snd q - snd p))) (dofZ (u32 (fst q - fst p)))) in
    let rotated := map (fun v => dadd (dmul (dofZ (u32 (fst v - fst p))) (l_sin lm angle))
                                      (dmul (dsub (dofZ (snd v)) (dofZ (snd p))) (l_cos lm angle))) (bcontour b) in
    let height := dsub (dmax_element rotated) (dmin_element rotated) in
    let height := if dlt height (dofZ 1) then dofZ 1 else height in
    Ok (ddiv (dsqrt (dofZ d)) height)
  else Ok (dofZ 1).

(** blob_detection.h:365-373, BlobCriterion *)
Inductive criterion := ByCircularity | ByElongation | ByHeight | ByLength | BySize | ByWidth.
Definition criterion_eqb (a b : criterion) : bool :=
  match a, b with
  | ByCircularity, ByCircularity | ByElongation, ByElongation | ByHeight, ByHeight
  | ByLength, ByLength | BySize, BySize | ByWidth, ByWidth => true
  | _, _ => false
  end.

(** blob_detection.h:138-142 and 312-318: a blob with the flags [found] of the values that
    have been computed.  A value depends on the points only, so the flag is enough; a value that
    has not been computed is indeterminate. *)
Record info := mkInfo { iblob : blob; ifound : criterion -> bool }.
Definition computed (c : criterion) (i : info) : info :=
  mkInfo (iblob i) (fun d => criterion_eqb c d || ifound i d).

Definition enabled {T} (p : limits T) : bool :=
  match lmin p, lmax p with None, None => false | _, _ => true end.

(** blob_detection.cpp:428-478: one filter; the size is not cached, its flag is always set *)
Fixpoint keep {T} (c : criterion) (lt : T -> T -> bool) (p : limits T) (f : blob -> res mem T) (l : list info)
    : res mem (list info) :=
  match l with
  | [] => Ok []
  | i :: l' =>
      do v <- f (iblob i);
      do r <- keep c lt p f l';
      Ok (if removed lt p v then r else computed c i :: r)
  end.
Definition stage {T} (c : criterion) (lt : T -> T -> bool) (p : limits T) (f : blob -> res mem T) (l : list info)
    : res mem (list info) :=
  if enabled p then keep c lt p f l else Ok l.

(** blob_detection.cpp:427-478 *)
Definition select (lm : libm) (p : parameters) (l : list info) : res mem (list info) :=
  do l <- stage ByCircularity dlt (pcircularity p) (blob_circularity lm) l;
  do l <- stage ByElongation dlt (pelongation p) (blob_elongation lm) l;
  do l <- stage ByHeight Z.ltb (pheight p) (fun b => Ok (blob_height b)) l;
  do l <- stage ByLength dlt (plength p) blob_length l;
  do l <- stage BySize Z.ltb (psize p) (fun b => Ok (blob_size b)) l;
  stage ByWidth Z.ltb (pwidth p) (fun b => Ok (blob_width b)) l.

(** blob_detection.cpp:189-484, BlobDetection::find with a region; the result is the new value
    of [_blob].  The exceptional result carries the memory of the images. *)
Definition fresh (b : blob) : info := mkInfo b (fun c => criterion_eqb c BySize).
Definition find (lm : libm) (m : mem) (im : image) (x y w h : Z) (p : parameters) (threshold : Z)
    : res mem (list info) :=
  guard valid_roi im x y w h with m;
  guard is_gray im with m;
  guard verify_all p with m;
  do mp <- mark m im x y w h threshold (new_map w h);
  do r <- collect w h x y mp;
  select lm p (map fresh (snd r)).

(** blob_detection.h:335-338, find on the whole image *)
Definition find_whole (lm : libm) (m : mem) (im : image) (p : parameters) (threshold : Z) : res mem (list info) :=
  find lm m im 0 0 (iw im) (ih im) p threshold.

(** The constant getters (blob_detection.h:196-296): the cached value, indeterminate when it has
    not been computed.  The integer values are compared as numbers, the others as doubles. *)
Inductive value := VInt (v : Z) | VDouble (d : double).
Definition compute (lm : libm) (c : criterion) (b : blob) : res mem value :=
  match c with
  | ByCircularity => do v <- blob_circularity lm b; Ok (VDouble v)
  | ByElongation => do v <- blob_elongation lm b; Ok (VDouble v)
  | ByHeight => Ok (VInt (blob_height b))
  | ByLength => do v <- blob_length b; Ok (VDouble v)
  | BySize => Ok (VInt (blob_size b))
  | ByWidth => Ok (VInt (blob_width b))
  end.
Definition getter (lm : libm) (c : criterion) (i : info) : res mem value :=
  if ifound i c then compute lm c (iblob i) else UB.
Definition vlt (a b : value) : bool :=
  match a, b with
  | VInt a, VInt b => a <? b
  | VDouble a, VDouble b => dlt a b
  | _, _ => false
  end.

(** The values of all elements of a range: std::sort and std::max_element with at least two
    elements apply the comparison to each of them. *)
Fixpoint getters (lm : libm) (c : criterion) (l : list info) : res mem (list (value * info)) :=
  match l with
  | [] => Ok []
  | i :: l' => do v <- getter lm c i; do r <- getters lm c l'; Ok ((v, i) :: r)
  end.

(** blob_detection.cpp:510-535, sort; [std_sort] is std::sort: it is given the comparison
    "greater value of the criterion". *)
Definition sort (std_sort : (value * info -> value * info -> bool) -> list (value * info) -> list (value * info))
    (lm : libm) (c : criterion) (l : list info) : res mem (list info) :=
  if (length l <? 2)%nat then Ok l
  else do vs <- getters lm c l; Ok (map snd (std_sort (fun a b => vlt (fst b) (fst a)) vs)).

(** blob_detection.cpp:486-508, getBestBlob: std::max_element, dereferenced *)
Fixpoint max_element (best : value * info) (l : list (value * info)) : value * info :=
  match l with
  | [] => best
  | a :: l' => max_element (if vlt (fst best) (fst a) then a else best) l'
  end.
Definition getBestBlob (lm : libm) (c : criterion) (l : list info) : res mem info :=
  match l with
  | [] => UB
  | [i] => Ok i
  | _ =>
      do vs <- getters lm c l;
      match vs with
      | [] => UB
      | a :: vs' => Ok (snd (max_element a vs'))
      end
  end.
