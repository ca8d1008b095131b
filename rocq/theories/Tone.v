(** Model of Normalize, GammaCorrection and GetThreshold: src/image_function.cpp:829-850 and
    1285-1327, src/image_function_helper.cpp:381-440.  Definitions only. *)
From Coq Require Import ZArith List Bool.
From Verif Require Import Base Image ImgFun Double.
Import ListNotations.
Open Scope Z_scope.

(** image_function.cpp:1290-1311: minimum and maximum of the region *)
Definition min_max (m : mem) (inp : image) (x y w h : Z) : res mem (Z * Z) :=
  let cc := icc inp in
  let inY := row_ptr inp x y cc in
  let realWidth := u32 (w * cc) in
  walk h [inY] [irs inp] (padd inY (u32 (h * irs inp)))
    (fun cs s =>
       walk realWidth cs [1] (padd (c0 cs) realWidth)
         (fun cs s =>
            do v <- load m (c0 cs);
            Ok (if v <? fst s then v else fst s, if snd s <? v then v else snd s)) s)
    (255, 0).

(** image_function.cpp:1323: ( i - minimum ) * correction + 0.5 with
    correction = 255.0 / ( maximum - minimum ) (1317) *)
Definition norm_value (mn mx i : Z) : double :=
  dadd (dmul (dofZ (i - mn)) (ddiv (dofZ 255) (dofZ (mx - mn)))) dhalf.

(** image_function.cpp:1320-1323.  [junk] is the outcome of converting a double outside the
    range of uint8_t: the C++ standard says undefined ([undefined]); compilers produce some
    value.  Such values are computed for table entries below the minimum or above the
    maximum, which are never looked up. *)
Definition norm_table (junk : double -> res mem Z) (mn mx : Z) : res mem (list Z) :=
  iterM 256 0 (fun i t => do v <- cast_to 256 junk (norm_value mn mx i); Ok (t ++ [v])) [].

(** image_function.cpp:1285-1327 *)
Definition Normalize (junk : double -> res mem Z) (m : mem)
    (inp : image) (xi yi : Z) (out : image) (xo yo w h : Z) : res mem mem :=
  guard valid_roi2 inp xi yi out xo yo w h with m;
  guard common_cc2 inp out with m;
  do s <- min_max m inp xi yi w h;
  let '(mn, mx) := s in
  if ((mn =? 0) && (mx =? 255)) || (mn =? mx)
  then Copy m inp xi yi out xo yo w h
  else do table <- norm_table junk mn mx; LookupTable table m inp xi yi out xo yo w h.

(** image_function_helper.cpp:390: a * pow( i / 255.0, gamma ) * 255 + 0.5; [pow] is the C
    library function *)
Definition gamma_value (pow : double -> double -> double) (a gamma : double) (i : Z) : double :=
  dadd (dmul (dmul a (pow (ddiv (dofZ i) (dofZ 255)) gamma)) (dofZ 255)) dhalf.

(** image_function_helper.cpp:381-397, GetGammaCorrectionLookupTable *)
Definition gamma_table (pow : double -> double -> double) (m : mem) (a gamma : double)
    : res mem (list Z) :=
  guard negb (dlt a (dofZ 0) || dlt gamma (dofZ 0)) with m;
  iterM 256 0
    (fun i t =>
       let data := gamma_value pow a gamma i in
       do v <- (if dlt data (dofZ 256) then cast_to 256 undefined data else Ok 255);
       Ok (t ++ [v])) [].

(** image_function.cpp:829-837 *)
Definition GammaCorrection (pow : double -> double -> double) (a gamma : double) (m : mem)
    (inp : image) (xi yi : Z) (out : image) (xo yo w h : Z) : res mem mem :=
  guard valid_roi2 inp xi yi out xo yo w h with m;
  do table <- gamma_table pow m a gamma;
  LookupTable table m inp xi yi out xo yo w h.

(** image_function_helper.cpp:428-430: sigma from the pixel count and the sum of the values up
    to the current index; all integers are uint32_t *)
Definition sigma_of (pixelCount sum pixelCountTemp sumTemp : Z) : double :=
  let w1 := ddiv (dofZ pixelCountTemp) (dofZ pixelCount) in
  let a := dsub (ddiv (dofZ sumTemp) (dofZ pixelCountTemp))
                (ddiv (dofZ (u32 (sum - sumTemp))) (dofZ (u32 (pixelCount - pixelCountTemp)))) in
  dmul (dmul (dmul w1 (dsub (dofZ 1) w1)) a) a.

(** image_function_helper.cpp:412-437: the search; [l] is the rest of the histogram, [i] the
    index of its first element *)
Fixpoint otsu (pixelCount sum : Z) (l : list Z) (i sumTemp pixelCountTemp : Z) (maximumSigma : double)
    (threshold : Z) : Z :=
  match l with
  | [] => threshold
  | v :: l' =>
      let pixelCountTemp := u32 (pixelCountTemp + v) in
      if pixelCountTemp =? pixelCount then threshold
      else if 0 <? pixelCountTemp then
        let sumTemp := u32 (sumTemp + u32 (i * v)) in
        let sigma := sigma_of pixelCount sum pixelCountTemp sumTemp in
        if dlt maximumSigma sigma
        then otsu pixelCount sum l' (i + 1) sumTemp pixelCountTemp sigma (u8 i)
        else otsu pixelCount sum l' (i + 1) sumTemp pixelCountTemp maximumSigma threshold
      else otsu pixelCount sum l' (i + 1) sumTemp pixelCountTemp maximumSigma threshold
  end.

(** image_function_helper.cpp:399-440, GetThreshold.  The size is checked first, so the
    element accesses are in range.  Lines 405-410 are sums over all elements. *)
Definition GetThreshold (histogram : list Z) : res unit Z :=
  guard (Z.of_nat (length histogram) =? 256) with tt;
  let pixelCount := fold_left (fun c v => u32 (c + v)) histogram 0 in
  let sum := snd (fold_left (fun s v => (fst s + 1, u32 (snd s + u32 (fst s * v)))) histogram (0, 0)) in
  Ok (otsu pixelCount sum histogram 0 0 0 (dofZ (-1)) 0).
