(** Model of binary dilation and erosion, src/image_function.cpp:78-186 and 271-293.
    Definitions only. *)
From Coq Require Import ZArith List Bool.
From Verif Require Import Base Image ImgFun.
Import ListNotations.
Open Scope Z_scope.

(** State of the scan of one row or column: current pointer, the expected value, the pairs
    (startPos, endPos) found so far, and whether the loop was left by [break]. *)
Record scan := mkScan { scur : ptr; sprev : Z; spairs : list (ptr * ptr); sstop : bool }.

(** image_function.cpp:111-126 (rows, stride 1) and 156-173 (columns, stride rowSize): one
    iteration of the scan.  [start] is the first sample of the line, [pend] the end pointer,
    [n] the number of samples, [d] the radius.  The array of 2 * n pointers (96, 141) is
    allocated with the size computed in uint32_t; a write beyond it is undefined.  For stride
    1 the position [u32 (cur - start) / 1] is the pointer difference of line 113. *)
Definition scan_step (m : mem) (start pend : ptr) (stride n d : Z) (s : scan) : res mem scan :=
  do v <- load m (scur s);
  if v =? sprev s then Ok (mkScan (padd (scur s) stride) (sprev s) (spairs s) false)
  else
    let pos := u32 (snd (scur s) - snd start) / stride in
    let reach := u32 (d * stride) in
    let a := if pos <? d then start else padd (scur s) (- reach) in
    if n + Z.of_nat (length (spairs s)) <? u32 (2 * n) then
      if n - pos <? d
      then Ok (mkScan (scur s) (sprev s) (spairs s ++ [(a, pend)]) true)
      else Ok (mkScan (padd (scur s) stride) (Z.lxor 255 (sprev s))
                 (spairs s ++ [(a, padd (scur s) reach)]) false)
    else UB.

(** image_function.cpp:128-134 and 175-181: fill every pair with [value] *)
Fixpoint paint (m : mem) (pairs : list (ptr * ptr)) (stride n value : Z) : res mem mem :=
  match pairs with
  | [] => Ok m
  | (a, b) :: l =>
      do m' <- walk n [a] [stride] b (fun cs m => store m (c0 cs) value) m;
      paint m' l stride n value
  end.

(** image_function.cpp:103-134 and 148-181: one row or column *)
Definition dilate_line (m : mem) (start : ptr) (stride n d value : Z) : res mem mem :=
  let pend := padd start (u32 (n * stride)) in
  do v <- load m start;
  do s <- loop (fuel_of n) (fun s => negb (sstop s) && negb (ptr_eqb (scur s) pend))
            (scan_step m start pend stride n d) (mkScan (padd start stride) v [] false);
  paint m (spairs s) stride n value.

(** image_function.cpp:78-186 *)
Definition Dilate (m : mem) (im : image) (x y w h dx dy value : Z) : res mem mem :=
  guard valid_roi im x y w h with m;
  guard is_gray im with m;
  if (dx =? 0) && (dy =? 0) then Ok m else
  let dx := if w / 2 <? dx then w / 2 else dx in
  let dy := if h / 2 <? dy then h / 2 else dy in
  let rs := irs im in
  let start := row_ptr im x y 1 in
  do m <- (if 0 <? dx then
             walk h [start] [rs] (padd start (u32 (h * rs)))
               (fun cs m => dilate_line m (c0 cs) 1 w dx value) m
           else Ok m);
  if 0 <? dy then
    walk w [start] [1] (padd start w) (fun cs m => dilate_line m (c0 cs) rs h dy value) m
  else Ok m.

(** image_function.cpp:278-281 and 290-293 *)
Definition BinaryDilate (m : mem) (im : image) (x y w h dx dy : Z) := Dilate m im x y w h dx dy 255.
Definition BinaryErode (m : mem) (im : image) (x y w h dx dy : Z) := Dilate m im x y w h dx dy 0.

(** image_function.cpp:271-276 and 283-288: the forms for whole images *)
Definition BinaryDilate1 (m : mem) (im : image) (dx dy : Z) : res mem mem :=
  guard valid_image im with m; BinaryDilate m im 0 0 (iw im) (ih im) dx dy.
Definition BinaryErode1 (m : mem) (im : image) (dx dy : Z) : res mem mem :=
  guard valid_image im with m; BinaryErode m im 0 0 (iw im) (ih im) dx dy.
