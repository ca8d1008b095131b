(** Model of the multi-threaded functions: src/function_pool_task.cpp and
    src/function_pool.cpp.  Definitions only.

    Conventions.
    - The number of threads of ThreadPoolMonoid is a parameter [n].
    - A task runs one image function on one strip.  Its code is the list of memory accesses
      the scalar function of ImgFun.v makes on that strip, produced by the same loops
      ([..._code] below; FuncPoolProofs.v proves that running the list is the scalar function).
    - Tasks run concurrently: any interleaving of single loads and stores, given by a
      [schedule] that says which task makes the next step.  The worker threads of the pool
      (Pool.v) run a subset of these interleavings.
    - penguinV::F is the scalar Image_Function::F; the SIMD version gives the same memory
      (PropsF.v). *)
From Coq Require Import ZArith List Bool.
From Verif Require Import Base Image ImgFun.
Import ListNotations.
Open Scope Z_scope.

(** ** Splitting a region: AreaInfo *)

(** function_pool_task.h:36-39: startX[i], startY[i], width[i], height[i] *)
Record strip := mkStrip { sx : Z; sy : Z; sw : Z; sh : Z }.

(** function_pool_task.cpp:34 *)
Definition cacheSize : Z := 16.

(** function_pool_task.cpp:93-101 and 111-119: the loop that hands out [quot] or [quot + 1]
    lines to each task; the result are the pairs (start, size). *)
Fixpoint fill_axis (count : nat) (quot remain prev : Z) : list (Z * Z) :=
  match count with
  | O => []
  | S k =>
      let size := if 0 <? remain then u32 (quot + 1) else quot in
      (prev, size) :: fill_axis k quot (if 0 <? remain then remain - 1 else remain) (u32 (prev + size))
  end.

(** function_pool_task.cpp:81-122, AreaInfo::_fill; a zero count divides by zero *)
Definition area_fill {E} (x y w h count : Z) (yAxis : bool) : res E (list strip) :=
  if count =? 0 then UB else
  Ok (if yAxis
      then map (fun s => mkStrip x (fst s) w (snd s)) (fill_axis (Z.to_nat count) (h / count) (h mod count) y)
      else map (fun s => mkStrip (fst s) y (snd s) h) (fill_axis (Z.to_nat count) (w / count) (w mod count) x)).

(** function_pool_task.cpp:66-79, AreaInfo::_calculate (and the constructor, 40-43) *)
Definition area_calculate {E} (x y w h count : Z) : res E (list strip) :=
  let maxX := w / cacheSize in
  let maxX := if maxX =? 0 then 1 else maxX in
  let maxX := if count <? maxX then count else maxX in
  let maxY := if count <? h then count else h in
  area_fill x y w h (if maxX <=? maxY then maxY else maxX) (maxX <=? maxY).

(** function_pool_task.cpp:53-60: are all strips made of whole rows? *)
Fixpoint rows_only (l : list strip) : bool :=
  match l with
  | a :: ((b :: _) as l') =>
      if negb (sx a =? sx b) || negb (sw a =? sw b) then false else rows_only l'
  | _ => true
  end.

(** function_pool_task.cpp:50-64, AreaInfo::_copy; [self] is the object before the call *)
Definition area_copy {E} (self info : list strip) (x y w h : Z) (oppositeAxis : bool)
    : res E (list strip) :=
  match info with
  | [] => Ok self
  | _ => area_fill x y w h (Z.of_nat (length info))
           (if oppositeAxis then negb (rows_only info) else rows_only info)
  end.

(** ** Tasks as sequences of memory accesses *)

(** Load all of [isrc] in order, compute, store the results to [idst] in order.  [None] is
    undefined behaviour (a table index out of range). *)
Record instr := mkInstr { isrc : list ptr; ifn : list Z -> option (list Z); idst : list ptr }.

Inductive thread :=
| TLoad (ps : list ptr) (vs : list Z) (fn : list Z -> option (list Z)) (ds : list ptr)
    (rest : list instr)                                   (* loads still to make, values read *)
| TStore (ds : list ptr) (ws : list Z) (rest : list instr) (* stores still to make *)
| TDone                                                    (* the task returned *)
| TFail.                                                   (* the task threw an exception *)

Definition tstart (code : list instr) : thread :=
  match code with
  | [] => TDone
  | i :: rest => TLoad (isrc i) [] (ifn i) (idst i) rest
  end.

(** One step of a task: at most one access to memory. *)
Definition tstep (m : mem) (t : thread) : res unit (mem * thread) :=
  match t with
  | TLoad (p :: ps) vs fn ds rest => do v <- load m p; Ok (m, TLoad ps (vs ++ [v]) fn ds rest)
  | TLoad [] vs fn ds rest =>
      match fn vs with Some ws => Ok (m, TStore ds ws rest) | None => UB end
  | TStore (d :: ds) (v :: ws) rest => do m' <- store m d v; Ok (m', TStore ds ws rest)
  | TStore _ _ rest => Ok (m, tstart rest)
  | TDone => Ok (m, TDone)
  | TFail => Ok (m, TFail)
  end.

(** Step the task with number [i] (nothing happens when there is none). *)
Fixpoint step_nth (m : mem) (ts : list thread) (i : nat) : res unit (mem * list thread) :=
  match ts, i with
  | [], _ => Ok (m, [])
  | t :: ts', O => do (m', t') <- tstep m t; Ok (m', t' :: ts')
  | t :: ts', S k => do (m', ts'') <- step_nth m ts' k; Ok (m', t :: ts'')
  end.

Fixpoint interleave (sched : list nat) (m : mem) (ts : list thread) : res unit (mem * list thread) :=
  match sched with
  | [] => Ok (m, ts)
  | i :: s => do (m', ts') <- step_nth m ts i; interleave s m' ts'
  end.

Definition finished (t : thread) : bool :=
  match t with TDone | TFail => true | _ => false end.
Definition failed (t : thread) : bool := match t with TFail => true | _ => false end.

Fixpoint start_all (tasks : list (res unit (list instr))) : res unit (list thread) :=
  match tasks with
  | [] => Ok []
  | c :: l =>
      do t <- match c with
              | Ok code => Ok (tstart code)
              | Throw _ => Ok TFail
              | UB => UB
              | Timeout => Timeout
              end;
      do ts <- start_all l;
      Ok (t :: ts)
  end.

(** function_pool_task.cpp:225-231, FunctionPoolTask::_processTask: hand the tasks to the
    pool and wait for all of them.  [Timeout] means that the caller is still waiting after
    the given schedule. *)
Definition process (sched : list nat) (m : mem) (tasks : list (res unit (list instr))) : res mem mem :=
  match (do ts <- start_all tasks; interleave sched m ts) with
  | Ok (m', ts') =>
      if forallb finished ts' then (if existsb failed ts' then Throw m' else Ok m') else Timeout
  | Throw _ => UB (* start_all and interleave do not throw *)
  | UB => UB
  | Timeout => Timeout
  end.

(** ** Code of the strip functions: the loops of ImgFun.v with the loop body replaced by the
    accesses it makes *)

Definition code : Type := res unit (list instr).

Definition emit {E} (i : instr) (t : list instr) : res E (list instr) := Ok (t ++ [i]).
Definition mv (d s : ptr) : instr := mkInstr [s] (fun v => Some v) [d].

(** image_function.cpp:207-237 and the functions listed at [pixelwise2] *)
Definition pixelwise2_code (opt : image -> image -> image -> list image) (f : Z -> Z -> Z)
    (in1 : image) (x1 y1 : Z) (in2 : image) (x2 y2 : Z) (out : image) (xo yo w h : Z) : code :=
  guard valid_roi3 in1 x1 y1 in2 x2 y2 out xo yo w h with tt;
  guard common_cc3 in1 in2 out with tt;
  let cc := icc in1 in
  let '(w, h) := OptimiseRoi (u32 (w * cc)) h (opt in1 in2 out) in
  let in1Y := row_ptr in1 x1 y1 cc in
  let in2Y := row_ptr in2 x2 y2 cc in
  let outY := row_ptr out xo yo cc in
  walk h [outY; in1Y; in2Y] [irs out; irs in1; irs in2] (padd outY (u32 (h * irs out)))
    (fun cs t =>
       walk w cs [1; 1; 1] (padd (c0 cs) w)
         (fun cs t =>
            emit (mkInstr [c1 cs; c2 cs] (fun v => Some [f (nth 0 v 0) (nth 1 v 0)]) [c0 cs]) t) t) [].

(** image_function.cpp:980-1006 and the functions listed at [pixelwise1] *)
Definition pixelwise1_code (pre : image -> image -> bool) (f : Z -> option Z)
    (inp : image) (xi yi : Z) (out : image) (xo yo w h : Z) : code :=
  guard valid_roi2 inp xi yi out xo yo w h with tt;
  guard pre inp out with tt;
  let cc := icc inp in
  let '(w, h) := OptimiseRoi (u32 (w * cc)) h [inp; out] in
  let inY := row_ptr inp xi yi cc in
  let outY := row_ptr out xo yo cc in
  walk h [outY; inY] [irs out; irs inp] (padd outY (u32 (h * irs out)))
    (fun cs t =>
       walk w cs [1; 1] (padd (c0 cs) w)
         (fun cs t =>
            emit (mkInstr [c1 cs] (fun v => match f (nth 0 v 0) with Some r => Some [r] | None => None end)
                    [c0 cs]) t) t) [].

(** memcpy( d, s, n ) *)
Definition memcpy_code (d s : ptr) (n : Z) (t : list instr) : code :=
  if overlaps d s n then UB
  else emit (mkInstr (span s (Z.to_nat n)) (fun v => Some v) (span d (Z.to_nat n))) t.

(** image_function.cpp:657-678 *)
Definition Copy_code (inp : image) (xi yi : Z) (out : image) (xo yo w h : Z) : code :=
  guard valid_roi2 inp xi yi out xo yo w h with tt;
  guard common_cc2 inp out with tt;
  let cc := icc inp in
  let '(w, h) := OptimiseRoi (u32 (w * cc)) h [inp; out] in
  let inY := row_ptr inp xi yi cc in
  let outY := row_ptr out xo yo cc in
  walk h [outY; inY] [irs out; irs inp] (padd outY (u32 (h * irs out)))
    (fun cs t => memcpy_code (c0 cs) (c1 cs) w t) [].

(** image_function.cpp:563-593 *)
Definition ConvertToGrayScale_code (inp : image) (xi yi : Z) (out : image) (xo yo w h : Z) : code :=
  guard valid_roi2 inp xi yi out xo yo w h with tt;
  guard is_gray out with tt;
  if icc inp =? GRAY_SCALE then Copy_code inp xi yi out xo yo w h else
  let cc := RGB in
  let inY := row_ptr inp xi yi cc in
  let outY := row_ptr out xo yo 1 in
  walk h [outY; inY] [irs out; irs inp] (padd outY (u32 (h * irs out)))
    (fun cs t =>
       walk w cs [1; cc] (padd (c0 cs) w)
         (fun cs t =>
            emit (mkInstr [c1 cs; padd (c1 cs) 1; padd (c1 cs) 2]
                    (fun v => Some [u8 ((nth 0 v 0 + nth 1 v 0 + nth 2 v 0) / 3)]) [c0 cs]) t) t) [].

(** image_function.cpp:610-643 *)
Definition ConvertToRgb_code (inp : image) (xi yi : Z) (out : image) (xo yo w h : Z) : code :=
  guard valid_roi2 inp xi yi out xo yo w h with tt;
  guard is_rgb out with tt;
  if icc inp =? RGB then Copy_code inp xi yi out xo yo w h else
  let cc := RGB in
  let inY := row_ptr inp xi yi 1 in
  let outY := row_ptr out xo yo cc in
  let w := u32 (w * cc) in
  walk h [outY; inY] [irs out; irs inp] (padd outY (u32 (h * irs out)))
    (fun cs t =>
       walk w cs [cc; 1] (padd (c0 cs) w)
         (fun cs t =>
            emit (mkInstr [c1 cs] (fun v => Some (repeat (nth 0 v 0) (Z.to_nat cc)))
                    (span (c0 cs) (Z.to_nat cc))) t) t) [].

(** image_function.cpp:695-723 *)
Definition ExtractChannel_code (ch : Z) (inp : image) (xi yi : Z) (out : image) (xo yo w h : Z) : code :=
  guard valid_roi2 inp xi yi out xo yo w h with tt;
  guard is_gray out with tt;
  guard (ch <? icc inp) with tt;
  let cc := icc inp in
  let inY := padd (row_ptr inp xi yi cc) ch in
  let outY := row_ptr out xo yo 1 in
  walk h [outY; inY] [irs out; irs inp] (padd outY (u32 (h * irs out)))
    (fun cs t =>
       walk w cs [1; cc] (padd (c0 cs) w) (fun cs t => emit (mv (c0 cs) (c1 cs)) t) t) [].

(** image_function.cpp:1180-1221 *)
Definition Merge_code (in1 : image) (x1 y1 : Z) (in2 : image) (x2 y2 : Z)
    (in3 : image) (x3 y3 : Z) (out : image) (xo yo w h : Z) : code :=
  guard valid_roi3 in1 x1 y1 in2 x2 y2 in3 x3 y3 w h with tt;
  guard valid_roi out xo yo w h with tt;
  guard (is_gray in1 && is_gray in2 && is_gray in3) with tt;
  guard is_rgb out with tt;
  let cc := RGB in
  let w := u32 (w * cc) in
  let in1Y := row_ptr in1 x1 y1 1 in
  let in2Y := row_ptr in2 x2 y2 1 in
  let in3Y := row_ptr in3 x3 y3 1 in
  let outY := row_ptr out xo yo cc in
  walk h [outY; in1Y; in2Y; in3Y] [irs out; irs in1; irs in2; irs in3]
      (padd outY (u32 (h * irs out)))
    (fun cs t =>
       walk w cs [3; 1; 1; 1] (padd (c0 cs) w)
         (fun cs t => Ok (t ++ [mv (c0 cs) (c1 cs); mv (padd (c0 cs) 1) (c2 cs);
                                mv (padd (c0 cs) 2) (c3 cs)])) t) [].

(** image_function.cpp:1855-1893 *)
Definition Split_code (inp : image) (xi yi : Z) (out1 : image) (x1 y1 : Z)
    (out2 : image) (x2 y2 : Z) (out3 : image) (x3 y3 w h : Z) : code :=
  guard valid_roi inp xi yi w h with tt;
  guard valid_roi3 out1 x1 y1 out2 x2 y2 out3 x3 y3 w h with tt;
  guard is_rgb inp with tt;
  guard (is_gray out1 && is_gray out2 && is_gray out3) with tt;
  let cc := RGB in
  let w := u32 (w * cc) in
  let inY := row_ptr inp xi yi cc in
  let out1Y := row_ptr out1 x1 y1 1 in
  let out2Y := row_ptr out2 x2 y2 1 in
  let out3Y := row_ptr out3 x3 y3 1 in
  walk h [inY; out1Y; out2Y; out3Y] [irs inp; irs out1; irs out2; irs out3]
      (padd inY (u32 (h * irs inp)))
    (fun cs t =>
       walk w cs [3; 1; 1; 1] (padd (c0 cs) w)
         (fun cs t => Ok (t ++ [mv (c1 cs) (c0 cs); mv (c2 cs) (padd (c0 cs) 1);
                                mv (c3 cs) (padd (c0 cs) 2)])) t) [].

(** image_function.cpp:1509-1539 *)
Definition RgbToBgr_code (inp : image) (xi yi : Z) (out : image) (xo yo w h : Z) : code :=
  guard valid_roi2 inp xi yi out xo yo w h with tt;
  guard (is_rgb inp && is_rgb out) with tt;
  let cc := RGB in
  let '(w, h) := OptimiseRoi (u32 (w * cc)) h [inp; out] in
  let inY := row_ptr inp xi yi cc in
  let outY := row_ptr out xo yo cc in
  walk h [outY; inY] [irs out; irs inp] (padd outY (u32 (h * irs out)))
    (fun cs t =>
       walk w cs [cc; cc] (padd (c0 cs) w)
         (fun cs t => Ok (t ++ [mv (padd (c0 cs) 2) (c1 cs);
                                mv (padd (c0 cs) 1) (padd (c1 cs) 1);
                                mv (c0 cs) (padd (c1 cs) 2)])) t) [].

(** image_function.cpp:765-812 *)
Definition Flip_code (horizontal vertical : bool) (inp : image) (xi yi : Z) (out : image)
    (xo yo w h : Z) : code :=
  guard valid_roi2 inp xi yi out xo yo w h with tt;
  guard (is_gray inp && is_gray out) with tt;
  if negb horizontal && negb vertical then Copy_code inp xi yi out xo yo w h else
  let inY := row_ptr inp xi yi 1 in
  let inYEnd := padd inY (u32 (h * irs inp)) in
  if horizontal && negb vertical then
    let outY := padd (row_ptr out xo yo 1) (w - 1) in
    walk h [inY; outY] [irs inp; irs out] inYEnd
      (fun cs t =>
         walk w cs [1; -1] (padd (c0 cs) w) (fun cs t => emit (mv (c1 cs) (c0 cs)) t) t) []
  else
    let lastY := padd (padd (dataptr out) (u32 (u32 (yo + h - 1) * irs out))) xo in
    if negb horizontal && vertical then
      walk h [inY; lastY] [irs inp; - irs out] inYEnd
        (fun cs t => memcpy_code (c1 cs) (c0 cs) w t) []
    else
      walk h [inY; padd lastY (w - 1)] [irs inp; - irs out] inYEnd
        (fun cs t =>
           walk w cs [1; -1] (padd (c0 cs) w) (fun cs t => emit (mv (c1 cs) (c0 cs)) t) t) [].

(** image_function.cpp:2071-2094 *)
Definition Transpose_code (inp : image) (xi yi : Z) (out : image) (xo yo w h : Z) : code :=
  guard valid_roi inp xi yi w h with tt;
  guard valid_roi out xo yo h w with tt;
  guard (is_gray inp && is_gray out) with tt;
  let inX := row_ptr inp xi yi 1 in
  let outY := row_ptr out xo yo 1 in
  walk w [outY; inX] [irs out; 1] (padd outY (u32 (w * irs out)))
    (fun cs t =>
       walk h cs [1; irs inp] (padd (c0 cs) h) (fun cs t => emit (mv (c0 cs) (c1 cs)) t) t) [].

(** image_function.cpp:1442-1492 *)
Definition Resize_code (inp : image) (xi yi wi hi : Z) (out : image) (xo yo wo ho : Z) : code :=
  guard valid_roi inp xi yi wi hi with tt;
  guard valid_roi out xo yo wo ho with tt;
  let cc := icc inp in
  let inY := row_ptr inp xi yi cc in
  let outY := row_ptr out xo yo cc in
  let pos := positionX wi wo cc in
  let wo := u32 (wo * cc) in
  walk ho [outY; (0, 0)] [irs out; 1] (padd outY (u32 (ho * irs out)))
    (fun cs t =>
       let idY := snd (c1 cs) in
       let inX := padd inY (u32 (u32 (idY * hi) / ho * irs inp)) in
       if cc =? 1 then
         walk wo [c0 cs; (0, 0)] [1; 1] (padd (c0 cs) wo)
           (fun cs t =>
              do p <- vnth pos (snd (c1 cs));
              emit (mv (c0 cs) (padd inX p)) t) t
       else
         walk wo [c0 cs; (0, 0)] [cc; 1] (padd (c0 cs) wo)
           (fun cs t =>
              do p <- vnth pos (snd (c1 cs));
              memcpy_code (c0 cs) (padd inX p) cc t) t) [].

(** ** The functions of Function_Pool *)

(** function_pool_task.cpp:26-32, threadCount() throws for an empty pool; it is called after
    ValidateImageParameters *)
Definition has_threads (n : Z) : bool := negb (n =? 0).

Definition zip2 {A B C} (f : A -> B -> C) (l1 : list A) (l2 : list B) : list C :=
  map (fun p => f (fst p) (snd p)) (combine l1 l2).

(** _setup (function_pool_task.cpp:184-194) and _task for the two-input functions:
    function_pool.cpp:161-187 (AbsoluteDifference, BitwiseAnd, BitwiseOr, BitwiseXor), 292-304
    (Maximum, Minimum), 330-335 (Subtract) and 416-516. *)
Definition pool2 (F : image -> Z -> Z -> image -> Z -> Z -> image -> Z -> Z -> Z -> Z -> code)
    (n : Z) (sched : list nat) (m : mem) (in1 : image) (x1 y1 : Z) (in2 : image) (x2 y2 : Z)
    (out : image) (xo yo w h : Z) : res mem mem :=
  guard valid_roi3 in1 x1 y1 in2 x2 y2 out xo yo w h with m;
  guard has_threads n with m;
  do s1 <- area_calculate x1 y1 w h n;
  do s2 <- area_calculate x2 y2 w h n;
  do so <- area_calculate xo yo w h n;
  process sched m
    (zip2 (fun s1 s2so => F in1 (sx s1) (sy s1) in2 (sx (fst s2so)) (sy (fst s2so))
                            out (sx (snd s2so)) (sy (snd s2so)) (sw s1) (sh s1))
          s1 (combine s2 so)).

(** _setup (function_pool_task.cpp:158-166) and _task for the one-input functions:
    function_pool.cpp:189-210 (ConvertToGrayScale, ConvertToRgb, ExtractChannel), 260-264
    (Invert), 274-282 (LookupTable), 324-328 (RgbToBgr), 352-371 (Threshold); [pre] is the
    check made between _setup and _process (365-366: minThreshold > maxThreshold) or before
    _setup (689: VerifyGrayScaleImage of ExtractChannel); both only throw. *)
Definition pool1 (pre : image -> image -> bool)
    (F : image -> Z -> Z -> image -> Z -> Z -> Z -> Z -> code)
    (n : Z) (sched : list nat) (m : mem) (inp : image) (xi yi : Z) (out : image) (xo yo w h : Z)
    : res mem mem :=
  guard valid_roi2 inp xi yi out xo yo w h with m;
  guard has_threads n with m;
  guard pre inp out with m;
  do s1 <- area_calculate xi yi w h n;
  do so <- area_calculate xo yo w h n;
  process sched m
    (zip2 (fun s1 so => F inp (sx s1) (sy s1) out (sx so) (sy so) (sw s1) (sh s1)) s1 so).

(** function_pool.cpp:284-289 and function_pool_task.cpp:210-223: Merge *)
Definition pool_Merge (n : Z) (sched : list nat) (m : mem) (in1 : image) (x1 y1 : Z)
    (in2 : image) (x2 y2 : Z) (in3 : image) (x3 y3 : Z) (out : image) (xo yo w h : Z) : res mem mem :=
  guard valid_roi3 in1 x1 y1 in2 x2 y2 in3 x3 y3 w h with m;
  guard valid_roi2 in1 x1 y1 out xo yo w h with m;
  guard has_threads n with m;
  do s1 <- area_calculate x1 y1 w h n;
  do s2 <- area_calculate x2 y2 w h n;
  do s3 <- area_calculate x3 y3 w h n;
  do so <- area_calculate xo yo w h n;
  process sched m
    (zip2 (fun s1 q => Merge_code in1 (sx s1) (sy s1) in2 (sx (fst q)) (sy (fst q))
                         in3 (sx (fst (snd q))) (sy (fst (snd q)))
                         out (sx (snd (snd q))) (sy (snd (snd q))) (sw s1) (sh s1))
          s1 (combine s2 (combine s3 so))).

(** function_pool.cpp:1014-1023, 337-342 and function_pool_task.cpp:196-208: Split *)
Definition pool_Split (n : Z) (sched : list nat) (m : mem) (inp : image) (xi yi : Z)
    (out1 : image) (x1 y1 : Z) (out2 : image) (x2 y2 : Z) (out3 : image) (x3 y3 w h : Z)
    : res mem mem :=
  guard valid_roi inp xi yi w h with m;
  guard valid_roi3 out1 x1 y1 out2 x2 y2 out3 x3 y3 w h with m;
  guard is_rgb inp with m;
  guard (is_gray out1 && is_gray out2 && is_gray out3) with m;
  guard has_threads n with m;
  do s0 <- area_calculate xi yi w h n;
  do s1 <- area_calculate x1 y1 w h n;
  do s2 <- area_calculate x2 y2 w h n;
  do s3 <- area_calculate x3 y3 w h n;
  process sched m
    (zip2 (fun s0 q => Split_code inp (sx s0) (sy s0) out1 (sx (fst q)) (sy (fst q))
                         out2 (sx (fst (snd q))) (sy (fst (snd q)))
                         out3 (sx (snd (snd q))) (sy (snd (snd q))) (sw s0) (sh s0))
          s0 (combine s1 (combine s2 s3))).

(** function_pool.cpp:212-236 and 709-721: Flip.  The strips of the output are mirrored when
    the region was cut along the flipped axis. *)
Definition flip_strips (horizontal vertical : bool) (xo yo w h : Z) (so : list strip) : list strip :=
  match so with
  | a :: b :: _ =>
      if sy a =? sy b then
        if horizontal
        then map (fun s => mkStrip (u32 (2 * xo + w - (sx s + sw s))) (sy s) (sw s) (sh s)) so
        else so
      else
        if vertical
        then map (fun s => mkStrip (sx s) (u32 (2 * yo + h - (sy s + sh s))) (sw s) (sh s)) so
        else so
  | _ => so
  end.
Definition pool_Flip (horizontal vertical : bool) (n : Z) (sched : list nat) (m : mem)
    (inp : image) (xi yi : Z) (out : image) (xo yo w h : Z) : res mem mem :=
  if negb horizontal && negb vertical then Copy m inp xi yi out xo yo w h else
  guard valid_roi2 inp xi yi out xo yo w h with m;
  guard (is_gray inp && is_gray out) with m;
  guard has_threads n with m;
  do s1 <- area_calculate xi yi w h n;
  do so <- area_calculate xo yo w h n;
  process sched m
    (zip2 (fun s1 so => Flip_code horizontal vertical inp (sx s1) (sy s1) out (sx so) (sy so) (sw s1) (sh s1))
          s1 (flip_strips horizontal vertical xo yo w h so)).

(** function_pool_task.cpp:168-182: _setup of Resize and Transpose, the strips of the input
    and of the output *)
Definition resize_strips {E} (n xi yi wi hi xo yo wo ho : Z) (oppositeAxis : bool)
    : res E (list strip * list strip) :=
  do si <- area_calculate xi yi (Z.min wi wo) (Z.min hi ho) n;
  do so <- area_calculate xo yo wo ho n;
  do so <- area_copy so si xo yo wo ho oppositeAxis;
  do si <- area_copy si so xi yi wi hi oppositeAxis;
  Ok (si, so).

(** function_pool.cpp:373-377 and 1103-1110: Transpose *)
Definition pool_Transpose (n : Z) (sched : list nat) (m : mem)
    (inp : image) (xi yi : Z) (out : image) (xo yo w h : Z) : res mem mem :=
  guard valid_roi inp xi yi w h with m;
  guard valid_roi out xo yo h w with m;
  guard (is_gray inp && is_gray out) with m;
  guard has_threads n with m;
  do (si, so) <- resize_strips n xi yi w h xo yo h w true;
  process sched m
    (zip2 (fun s1 so => Transpose_code inp (sx s1) (sy s1) out (sx so) (sy so) (sw s1) (sh s1)) si so).

(** function_pool.cpp:317-322 and 965-972: Resize *)
Definition pool_Resize (n : Z) (sched : list nat) (m : mem)
    (inp : image) (xi yi wi hi : Z) (out : image) (xo yo wo ho : Z) : res mem mem :=
  guard valid_roi inp xi yi wi hi with m;
  guard valid_roi out xo yo wo ho with m;
  guard has_threads n with m;
  do (si, so) <- resize_strips n xi yi wi hi xo yo wo ho false;
  process sched m
    (zip2 (fun s1 so => Resize_code inp (sx s1) (sy s1) (sw s1) (sh s1) out (sx so) (sy so) (sw so) (sh so)) si so).

Definition always (a b : image) : bool := true.
Definition pool_AbsoluteDifference := pool2 (pixelwise2_code opt3 absdiff_px).
Definition pool_BitwiseAnd := pool2 (pixelwise2_code opt3 Z.land).
Definition pool_BitwiseOr := pool2 (pixelwise2_code opt3 Z.lor).
Definition pool_BitwiseXor := pool2 (pixelwise2_code opt3 Z.lxor).
Definition pool_Maximum := pool2 (pixelwise2_code opt3 max_px).
Definition pool_Minimum := pool2 (pixelwise2_code opt3 min_px).
Definition pool_Subtract := pool2 (pixelwise2_code opt3_subtract sub_px).
Definition pool_ConvertToGrayScale := pool1 always ConvertToGrayScale_code.
Definition pool_ConvertToRgb := pool1 always ConvertToRgb_code.
Definition pool_ExtractChannel (ch : Z) := pool1 (fun _ b => is_gray b) (ExtractChannel_code ch).
Definition pool_Invert := pool1 always (pixelwise1_code common_cc2 (fun a => Some (invert_px a))).
Definition table_at (table : list Z) (a : Z) : option Z :=
  if (0 <=? a) && (a <? Z.of_nat (length table)) then Some (nth (Z.to_nat a) table 0) else None.
Definition pool_LookupTable (table : list Z) :=
  pool1 always (pixelwise1_code (fun a b => (Z.of_nat (length table) =? 256) && common_cc2 a b) (table_at table)).
Definition pool_RgbToBgr := pool1 always RgbToBgr_code.
Definition pool_Threshold (t : Z) :=
  pool1 always (pixelwise1_code (fun a b => is_gray a && is_gray b) (fun a => Some (thr_px t a))).
Definition pool_Threshold2 (lo hi : Z) :=
  pool1 (fun _ _ => lo <=? hi)
    (pixelwise1_code (fun a b => is_gray a && is_gray b && (lo <=? hi)) (fun a => Some (thr2_px lo hi a))).

(** ** Reductions.  The tasks only read the images and each writes its own element of the
    output vector, so the list of results does not depend on the schedule. *)

Fixpoint results {A S} (f : S -> res mem A) (ss : list S) : res mem (list A) :=
  match ss with
  | [] => Ok []
  | s :: l => do a <- f s; do r <- results f l; Ok (a :: r)
  end.

(** function_pool.cpp:92-105, getSum *)
Definition getSum (l : list Z) : Z := fold_left (fun total v => u32 (total + v)) l 0.

(** function_pool.cpp:107-124, isEqual *)
Definition allEqual (l : list bool) : bool := forallb (fun b => b) l.

(** function_pool.cpp:127-150, _getArray: element-wise sum of vectors of one size *)
Definition vec_add (a b : list Z) : list Z := zip2 (fun x y => u32 (x + y)) a b.
Definition getArray (m : mem) (l : list (list Z)) : res mem (list Z) :=
  match l with
  | [] => Throw m
  | a :: l' =>
      guard forallb (fun v => Nat.eqb (length v) (length a)) l with m;
      Ok (fold_left vec_add l' a)
  end.

(** function_pool.cpp:64-90, getProjection; [size] is the size given to the result vector *)
Definition getProjection (m : mem) (size : Z) (l : list (list Z)) : res mem (list Z) :=
  match l with
  | [] => Throw m
  | a :: _ =>
      if size =? Z.of_nat (length a) then getArray m l
      else guard (size =? Z.of_nat (length (concat l))) with m; Ok (concat l)
  end.

(** function_pool.cpp:344-350, Sum *)
Definition pool_Sum (n : Z) (m : mem) (im : image) (x y w h : Z) : res mem Z :=
  guard valid_roi im x y w h with m;
  guard has_threads n with m;
  do ss <- area_calculate x y w h n;
  do l <- results (fun s => Sum m im (sx s) (sy s) (sw s) (sh s)) ss;
  Ok (getSum l).

(** function_pool.cpp:252-258, Histogram *)
Definition pool_Histogram (n : Z) (m : mem) (im : image) (x y w h : Z) : res mem (list Z) :=
  guard valid_roi im x y w h with m;
  guard has_threads n with m;
  do ss <- area_calculate x y w h n;
  do l <- results (fun s => Histogram m im (sx s) (sy s) (sw s) (sh s)) ss;
  getArray m l.

(** function_pool.cpp:306-315, ProjectionProfile: the result vector gets [width] or [height]
    elements whatever the colour count (313) *)
Definition pool_ProjectionProfile (n : Z) (m : mem) (im : image) (x y w h : Z) (horizontal : bool)
    : res mem (list Z) :=
  guard valid_roi im x y w h with m;
  guard has_threads n with m;
  do ss <- area_calculate x y w h n;
  do l <- results (fun s => ProjectionProfile m im (sx s) (sy s) (sw s) (sh s) horizontal) ss;
  getProjection m (if horizontal then w else h) l.

(** function_pool.cpp:266-272, IsEqual *)
Definition pool_IsEqual (n : Z) (m : mem) (in1 : image) (x1 y1 : Z) (in2 : image) (x2 y2 w h : Z)
    : res mem bool :=
  guard valid_roi2 in1 x1 y1 in2 x2 y2 w h with m;
  guard has_threads n with m;
  do s1 <- area_calculate x1 y1 w h n;
  do s2 <- area_calculate x2 y2 w h n;
  do l <- results (fun q => IsEqual m in1 (sx (fst q)) (sy (fst q)) in2 (sx (snd q)) (sy (snd q))
                              (sw (fst q)) (sh (fst q))) (combine s1 s2);
  Ok (allEqual l).
