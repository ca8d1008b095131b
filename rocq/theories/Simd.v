(** Model of the vectorised image functions, src/image_function_simd.cpp.
    Definitions only.

    Registers.  An x86 register is the list of its 128-bit lanes (one for SSE, two for AVX2,
    four for AVX-512), each lane the list of its 16 bytes in memory order.  A NEON register
    is one lane of 16 or 8 bytes.  Registers of 16-bit or 32-bit elements are written as
    lists of those elements; [as16], [as32] give the little-endian view of a byte lane.
    The definitions of the intrinsics follow the vendor manuals and are trusted. *)
From Coq Require Import ZArith List Bool.
From Verif Require Import Base Image ImgFun.
Import ListNotations.
Open Scope Z_scope.

(** ** Registers *)

Definition lane : Type := list Z.
Definition reg : Type := list lane.

Definition map2 {A B C} (f : A -> B -> C) (a : list A) (b : list B) : list C :=
  map (fun q => f (fst q) (snd q)) (combine a b).

(** Cut a list of elements into [k] lanes of [sz] elements. *)
Fixpoint lanes (k sz : nat) (l : list Z) : reg :=
  match k with
  | O => []
  | S k' => firstn sz l :: lanes k' sz (skipn sz l)
  end.

(** _mm_loadu_si128 / _mm256_loadu_si256 / _mm512_loadu_si512 ([k] = 1, 2, 4), vld1q_u8 *)
Definition loadu (k : nat) (m : mem) (p : ptr) : res mem reg :=
  do v <- loads m (span p (k * 16)); Ok (lanes k 16 v).
(** _mm_storeu_si128 / _mm256_storeu_si256 / _mm512_storeu_si512, vst1q_u8, vst1_u8, vst1q_u16 *)
Definition storeu (m : mem) (p : ptr) (r : reg) : res mem mem :=
  stores m (span p (length (concat r))) (concat r).

(** Elementwise operations on the bytes of registers *)
Definition vmap (f : Z -> Z) (a : reg) : reg := map (map f) a.
Definition vmap2 (f : Z -> Z -> Z) (a b : reg) : reg := map2 (map2 f) a b.
(** _mm_set_epi8 / _mm256_set_epi8 / _mm512_set1_epi8 with equal arguments *)
Definition set1 (k : nat) (v : Z) : reg := repeat (repeat v 16) k.
Definition setzero (k : nat) : reg := set1 k 0.

(** *_max_epu8, *_min_epu8, *_sub_epi8 *)
Definition max_epu8 : reg -> reg -> reg := vmap2 Z.max.
Definition min_epu8 : reg -> reg -> reg := vmap2 Z.min.
Definition sub_epi8 : reg -> reg -> reg := vmap2 (fun a b => u8 (a - b)).
(** *_and_si*, *_or_si*, *_xor_si*, *_andnot_si* (the first operand is complemented) *)
Definition and_si : reg -> reg -> reg := vmap2 Z.land.
Definition or_si : reg -> reg -> reg := vmap2 Z.lor.
Definition xor_si : reg -> reg -> reg := vmap2 Z.lxor.
Definition andnot_si : reg -> reg -> reg := vmap2 (fun a b => Z.land (255 - a) b).
(** *_cmpgt_epi8, _mm_cmplt_epi8: signed comparison, all bits of the element set when true *)
Definition s8 (a : Z) : Z := if a <? 128 then a else a - 256.
Definition cmpgt_epi8 : reg -> reg -> reg := vmap2 (fun a b => if s8 b <? s8 a then 255 else 0).
Definition cmplt_epi8 : reg -> reg -> reg := vmap2 (fun a b => if s8 a <? s8 b then 255 else 0).

(** *_unpacklo_epi8, *_unpackhi_epi8: interleave the low (high) halves of each 128-bit lane *)
Fixpoint interleave (a b : lane) : lane :=
  match a, b with
  | x :: a', y :: b' => x :: y :: interleave a' b'
  | _, _ => []
  end.
Definition unpacklo_epi8 : reg -> reg -> reg :=
  map2 (fun a b => interleave (firstn 8 a) (firstn 8 b)).
Definition unpackhi_epi8 : reg -> reg -> reg :=
  map2 (fun a b => interleave (skipn 8 a) (skipn 8 b)).
(** *_unpacklo_epi16, *_unpackhi_epi16 *)
Fixpoint interleave16 (a b : lane) : lane :=
  match a, b with
  | x0 :: x1 :: a', y0 :: y1 :: b' => x0 :: x1 :: y0 :: y1 :: interleave16 a' b'
  | _, _ => []
  end.
Definition unpacklo_epi16 : reg -> reg -> reg :=
  map2 (fun a b => interleave16 (firstn 8 a) (firstn 8 b)).
Definition unpackhi_epi16 : reg -> reg -> reg :=
  map2 (fun a b => interleave16 (skipn 8 a) (skipn 8 b)).

(** Little-endian views of a byte lane *)
Fixpoint as16 (a : lane) : lane :=
  match a with
  | x0 :: x1 :: a' => (x0 + 256 * x1) :: as16 a'
  | _ => []
  end.
Fixpoint as32 (a : lane) : lane :=
  match a with
  | x0 :: x1 :: x2 :: x3 :: a' => (x0 + 256 * x1 + 65536 * x2 + 16777216 * x3) :: as32 a'
  | _ => []
  end.
Definition of16 (a : lane) : lane := flat_map (fun v => [v mod 256; v / 256]) a.
(** *_add_epi16 on byte lanes *)
Definition add_epi16 : reg -> reg -> reg :=
  map2 (fun a b => of16 (map2 (fun x y => u16 (x + y)) (as16 a) (as16 b))).
(** *_add_epi32 on registers given by their 32-bit elements *)
Definition add_epi32 : reg -> reg -> reg := vmap2 (fun x y => u32 (x + y)).
Definition view32 (a : reg) : reg := map as32 a.
Definition view16 (a : reg) : reg := map as16 a.
(** *_srli_epi16( a, 8 ) and *_packus_epi16 on registers given by their 16-bit elements; packus
    saturates the signed 16-bit elements to 0..255, lane by lane *)
Definition srli_epi16_8 (a : reg) : reg := vmap (fun v => v / 256) a.
Definition s16 (a : Z) : Z := if a <? 32768 then a else a - 65536.
Definition sat_u8 (a : Z) : Z := if s16 a <? 0 then 0 else if 255 <? s16 a then 255 else s16 a.
Definition packus_epi16 : reg -> reg -> reg := map2 (fun a b => map sat_u8 (a ++ b)).
(** *_shuffle_epi8: within each 128-bit lane, the low four bits of the control select a byte *)
Definition shuffle_epi8 : reg -> reg -> reg :=
  map2 (fun a c => map (fun i => if 128 <=? i then 0 else nth (Z.to_nat (i mod 16)) a 0) c).

(** NEON: vabdq_u8, vmaxq_u8, vminq_u8, vsubq_u8, vandq_u8, vorrq_u8, veorq_u8, vmvnq_u8,
    vcgeq_u8, vcleq_u8 *)
Definition vabdq_u8 : reg -> reg -> reg := vmap2 (fun a b => Z.abs (a - b)).
Definition vmaxq_u8 : reg -> reg -> reg := vmap2 Z.max.
Definition vminq_u8 : reg -> reg -> reg := vmap2 Z.min.
Definition vsubq_u8 : reg -> reg -> reg := vmap2 (fun a b => u8 (a - b)).
Definition vandq_u8 : reg -> reg -> reg := vmap2 Z.land.
Definition vorrq_u8 : reg -> reg -> reg := vmap2 Z.lor.
Definition veorq_u8 : reg -> reg -> reg := vmap2 Z.lxor.
Definition vmvnq_u8 : reg -> reg := vmap (fun a => 255 - a).
Definition vcgeq_u8 : reg -> reg -> reg := vmap2 (fun a b => if b <=? a then 255 else 0).
Definition vcleq_u8 : reg -> reg -> reg := vmap2 (fun a b => if a <=? b then 255 else 0).
(** vget_low_*, vget_high_* on a lane of [2 n] elements *)
Definition vget_low (n : nat) (a : lane) : lane := firstn n a.
Definition vget_high (n : nat) (a : lane) : lane := skipn n a.
(** vaddl_u8, vaddl_u16 (widening), vaddw_u16, vaddq_u16 / vadd_u16, vaddq_u32 *)
Definition vaddl : lane -> lane -> lane := map2 Z.add.
Definition vadd_u16 : lane -> lane -> lane := map2 (fun a b => u16 (a + b)).
Definition vadd_u32 : lane -> lane -> lane := map2 (fun a b => u32 (a + b)).
(** vshll_n_u8( a, 8 ), vshrn_n_u16( a, 8 ) *)
Definition vshll_n_u8_8 (a : lane) : lane := map (fun v => Z.shiftl v 8) a.
Definition vshrn_n_u16_8 (a : lane) : lane := map (fun v => Z.shiftr v 8) a.
(** vtbl1_u8 (index 8 and above gives 0), vrev64_u8 *)
Definition vtbl1_u8 (a c : lane) : lane := map (fun i => if i <? 8 then nth (Z.to_nat i) a 0 else 0) c.
Definition vrev64_u8 (a : lane) : lane := rev a.

(** ** Build configuration and dispatch *)

(** The PENGUINV_*_SET macros, penguinv/cpu_identification.h:26-65 *)
Record build := mkBuild { b_avx512 : bool; b_avx : bool; b_sse : bool; b_ssse3 : bool; b_neon : bool }.

(** The combinations accepted by the #error checks, cpu_identification.h:71-99 *)
Definition build_ok (b : build) : bool :=
  negb (b_neon b && (b_sse b || b_avx b)) && implb (b_avx b) (b_sse b)
  && implb (b_avx512 b) (b_avx b) && implb (b_ssse3 b) (b_sse b).

(** image_function_helper.h, enum SIMDType *)
Inductive simd_type := avx512 | avx | sse | neon | cpu.

(** image_function_helper.cpp:1102-1106 and 1136-1162, actualSimdType.  A flag is true when the processor
    has the instruction set and it has not been disabled by EnableSimd and its variants. *)
Record flags := mkFlags { f_avx512 : bool; f_avx : bool; f_sse : bool; f_neon : bool }.
Definition actualSimdType (b : build) (f : flags) : simd_type :=
  if b_avx512 b && f_avx512 f then avx512
  else if b_avx b && f_avx f then avx
  else if b_sse b && f_sse f then sse
  else if b_neon b && f_neon f then neon
  else cpu.

(** simd::getSimdSize, image_function_simd.cpp:2444-2457 *)
Definition getSimdSize (t : simd_type) : Z :=
  match t with avx512 => 64 | avx => 32 | sse => 16 | neon => 16 | cpu => 1 end.
Definition nlanes (t : simd_type) : nat :=
  match t with avx512 => 4 | avx => 2 | sse => 1 | neon => 1 | cpu => 0 end%nat.

(** The AVX512SKL_CODE, AVX_CODE, SSE_CODE, SSSE3_CODE and NEON_CODE macros, 2459-2512: the
    branch for [t] exists only when its instruction set is part of the build. *)
Definition compiled (b : build) (t : simd_type) : bool :=
  match t with avx512 => b_avx512 b | avx => b_avx b | sse => b_sse b | neon => b_neon b | cpu => false end.
Definition compiled_ssse3 (b : build) (t : simd_type) : bool :=
  match t with sse => b_sse b && b_ssse3 b | neon => b_neon b | _ => false end.

Definition is_cpu (t : simd_type) : bool := match t with cpu => true | _ => false end.
Definition is_avx (t : simd_type) : bool := match t with avx => true | _ => false end.
Definition is_avx512 (t : simd_type) : bool := match t with avx512 => true | _ => false end.
Definition is_neon (t : simd_type) : bool := match t with neon => true | _ => false end.

(** Functions of this file call themselves with sse_function when the AVX path does not apply
    (e.g. 2525): one level of recursion. *)
Definition twice {R : Type} (last : R) (F : (simd_type -> R) -> simd_type -> R) (t : simd_type) : R :=
  F (F (fun _ => last)) t.

(** simdWidth, totalSimdWidth, nonSimdWidth (e.g. 2542-2544) *)
Definition simdWidth (w n : Z) : Z := w / n.
Definition totalSimdWidth (w n : Z) : Z := u32 (simdWidth w n * n).
Definition nonSimdWidth (w n : Z) : Z := u32 (w - totalSimdWidth w n).

(** ** Pixelwise functions with two inputs *)

(** The loop shared by AbsoluteDifference, BitwiseAnd, BitwiseOr, BitwiseXor, Maximum, Minimum and
    Subtract in the namespaces avx512 (85-112, 158-234, 318-376, 470-495), avx (545-572,
    618-694, 780-838, 962-987), sse (1162-1189, 1235-1311, 1489-1547, 1671-1697) and neon
    (1831-1855, 1895-1971, 2138-2196, 2320-2346).  [vop] combines two registers, [f] is the expression of
    the remaining pixels. *)
Definition rows2 (k : nat) (vop : reg -> reg -> reg) (f : Z -> Z -> Z) (m : mem)
    (in1Y in2Y outY : ptr) (rs1 rs2 rso w h : Z) : res mem mem :=
  let n := 16 * Z.of_nat k in
  walk h [outY; in1Y; in2Y] [rso; rs1; rs2] (padd outY (u32 (h * rso)))
    (fun cs m =>
       do m <- walk (simdWidth w n) [c1 cs; c2 cs; c0 cs] [n; n; n] (padd (c1 cs) (simdWidth w n * n))
                 (fun cs m =>
                    do a <- loadu k m (c0 cs);
                    do b <- loadu k m (c1 cs);
                    storeu m (c2 cs) (vop a b)) m;
       if 0 <? nonSimdWidth w n then
         let cs := map (fun p => padd p (totalSimdWidth w n)) cs in
         walk (nonSimdWidth w n) cs [1; 1; 1] (padd (c0 cs) (nonSimdWidth w n))
           (fun cs m =>
              do a <- load m (c1 cs);
              do b <- load m (c2 cs);
              store m (c0 cs) (f a b)) m
       else Ok m) m.

(** The dispatch functions, 2514-2552 (AbsoluteDifference), 2592-2710 (BitwiseAnd, BitwiseOr, BitwiseXor),
    2911-2989 (Maximum, Minimum), 3075-3113 (Subtract) *)
Definition simd2 (vop : simd_type -> reg -> reg -> reg) (f : Z -> Z -> Z)
    (scalar : mem -> image -> Z -> Z -> image -> Z -> Z -> image -> Z -> Z -> Z -> Z -> res mem mem)
    (b : build) (t : simd_type) (m : mem)
    (in1 : image) (x1 y1 : Z) (in2 : image) (x2 y2 : Z) (out : image) (xo yo w h : Z) : res mem mem :=
  twice Timeout (fun rec t =>
    guard common_cc3 in1 in2 out with m;
    let cc := icc in1 in
    if is_cpu t || (u32 (w * cc) <? getSimdSize t) then
      (if is_avx t && b_avx b then rec sse
       else scalar m in1 x1 y1 in2 x2 y2 out xo yo w h)
    else
      guard valid_roi3 in1 x1 y1 in2 x2 y2 out xo yo w h with m;
      let '(w, h) := OptimiseRoi (u32 (w * cc)) h [in1; in2; out] in
      if compiled b t then
        rows2 (nlanes t) (vop t) f m (row_ptr in1 x1 y1 cc) (row_ptr in2 x2 y2 cc) (row_ptr out xo yo cc)
          (irs in1) (irs in2) (irs out) w h
      else Throw m) t.

(** 85-112, 545-572, 1162-1189, 1831-1855 *)
Definition v_absdiff (t : simd_type) : reg -> reg -> reg :=
  match t with neon => vabdq_u8 | _ => fun a b => sub_epi8 (max_epu8 a b) (min_epu8 a b) end.
Definition SimdAbsoluteDifference := simd2 v_absdiff absdiff_px AbsoluteDifference.
(** 158-234, 618-694, 1235-1311, 1895-1971 *)
Definition v_and (t : simd_type) : reg -> reg -> reg := match t with neon => vandq_u8 | _ => and_si end.
Definition SimdBitwiseAnd := simd2 v_and Z.land BitwiseAnd.
Definition v_or (t : simd_type) : reg -> reg -> reg := match t with neon => vorrq_u8 | _ => or_si end.
Definition SimdBitwiseOr := simd2 v_or Z.lor BitwiseOr.
Definition v_xor (t : simd_type) : reg -> reg -> reg := match t with neon => veorq_u8 | _ => xor_si end.
Definition SimdBitwiseXor := simd2 v_xor Z.lxor BitwiseXor.
(** 318-376, 780-838, 1489-1547, 2138-2196 *)
Definition v_max (t : simd_type) : reg -> reg -> reg := match t with neon => vmaxq_u8 | _ => max_epu8 end.
Definition SimdMaximum := simd2 v_max max_px Maximum.
Definition v_min (t : simd_type) : reg -> reg -> reg := match t with neon => vminq_u8 | _ => min_epu8 end.
Definition SimdMinimum := simd2 v_min min_px Minimum.
(** 482, 974, 1683, 2332 *)
Definition v_sub (t : simd_type) : reg -> reg -> reg :=
  match t with neon => fun a b => vsubq_u8 a (vminq_u8 a b) | _ => fun a b => sub_epi8 a (min_epu8 a b) end.
Definition SimdSubtract := simd2 v_sub sub_px Subtract.

(** ** Pixelwise functions with one input *)

(** The loop of Invert (291-316, 751-778, 1461-1487, 2114-2136) and of the two Threshold functions *)
Definition rows1 (k : nat) (vop : reg -> reg) (f : Z -> Z) (m : mem)
    (inY outY : ptr) (rsi rso w h : Z) : res mem mem :=
  let n := 16 * Z.of_nat k in
  walk h [outY; inY] [rso; rsi] (padd outY (u32 (h * rso)))
    (fun cs m =>
       do m <- walk (simdWidth w n) [c1 cs; c0 cs] [n; n] (padd (c1 cs) (simdWidth w n * n))
                 (fun cs m => do a <- loadu k m (c0 cs); storeu m (c1 cs) (vop a)) m;
       if 0 <? nonSimdWidth w n then
         let cs := map (fun p => padd p (totalSimdWidth w n)) cs in
         walk (nonSimdWidth w n) cs [1; 1] (padd (c0 cs) (nonSimdWidth w n))
           (fun cs m => do a <- load m (c1 cs); store m (c0 cs) (f a)) m
       else Ok m) m.

(** Threshold with threshold 0 in avx and sse (1062-1066, 1769-1773): every row is filled with 255 *)
Definition fill_rows (m : mem) (outY : ptr) (rso w h n : Z) : res mem mem :=
  walk h [outY] [rso] (padd outY (u32 (h * rso)))
    (fun cs m => memset m (c0 cs) 255 (totalSimdWidth w n + nonSimdWidth w n)) m.

(** Invert, 2873-2909 *)
Definition v_invert (t : simd_type) : reg -> reg :=
  match t with neon => vmvnq_u8 | _ => fun a => andnot_si a (set1 (nlanes t) 255) end.
Definition SimdInvert (b : build) (t : simd_type) (m : mem)
    (inp : image) (xi yi : Z) (out : image) (xo yo w h : Z) : res mem mem :=
  twice Timeout (fun rec t =>
    guard common_cc2 inp out with m;
    let cc := icc inp in
    if is_cpu t || (u32 (w * cc) <? getSimdSize t) then
      (if is_avx t && b_avx b then rec sse else Invert m inp xi yi out xo yo w h)
    else
      guard valid_roi2 inp xi yi out xo yo w h with m;
      let '(w, h) := OptimiseRoi (u32 (w * cc)) h [inp; out] in
      if compiled b t then
        rows1 (nlanes t) (v_invert t) invert_px m (row_ptr inp xi yi cc) (row_ptr out xo yo cc)
          (irs inp) (irs out) w h
      else Throw m) t.

(** avx::Threshold 1025-1067, sse::Threshold 1735-1774, neon::Threshold 2378-2404 *)
Definition v_thr (t : simd_type) (th : Z) : reg -> reg :=
  match t with
  | neon => fun a => vcgeq_u8 a (set1 1 th)
  | _ => fun a => cmpgt_epi8 (xor_si a (set1 (nlanes t) 128)) (set1 (nlanes t) (Z.lxor (th - 1) 128))
  end.
Definition thr_kernel (t : simd_type) (th : Z) (m : mem) (inY outY : ptr) (rsi rso w h : Z) : res mem mem :=
  if is_neon t || (0 <? th) then rows1 (nlanes t) (v_thr t th) (thr_px th) m inY outY rsi rso w h
  else fill_rows m outY rso w h (getSimdSize t).
(** Threshold, 3162-3196 *)
Definition SimdThreshold (th : Z) (b : build) (t : simd_type) (m : mem)
    (inp : image) (xi yi : Z) (out : image) (xo yo w h : Z) : res mem mem :=
  twice Timeout (fun rec t =>
    if is_cpu t || is_avx512 t || (w <? getSimdSize t) then
      (if is_avx t && b_avx b then rec sse else Threshold th m inp xi yi out xo yo w h)
    else
      guard valid_roi2 inp xi yi out xo yo w h with m;
      guard (is_gray inp && is_gray out) with m;
      let '(w, h) := OptimiseRoi w h [inp; out] in
      if compiled b t && negb (is_avx512 t) then
        thr_kernel t th m (row_ptr inp xi yi 1) (row_ptr out xo yo 1) (irs inp) (irs out) w h
      else Throw m) t.

(** avx::Threshold 1069-1150, sse::Threshold 1776-1821, neon::Threshold 2406-2439 *)
Definition v_thr2 (t : simd_type) (lo hi : Z) : reg -> reg :=
  match t with
  | neon => fun a => vandq_u8 (vcgeq_u8 a (set1 1 lo)) (vcleq_u8 a (set1 1 hi))
  | avx => fun a =>
      let data := xor_si a (set1 2 128) in
      let below := andnot_si (cmpgt_epi8 data (set1 2 (Z.lxor hi 128))) (set1 2 255) in
      if 0 <? lo then and_si below (cmpgt_epi8 data (set1 2 (Z.lxor (lo - 1) 128))) else below
  | _ => fun a =>
      let data := xor_si a (set1 1 128) in
      andnot_si (or_si (cmplt_epi8 data (set1 1 (Z.lxor lo 128))) (cmpgt_epi8 data (set1 1 (Z.lxor hi 128))))
                (set1 1 255)
  end.
(** The expression of the remaining pixels; avx with minThreshold 0 only compares with the
    maximum (1145). *)
Definition thr2_tail (t : simd_type) (lo hi a : Z) : Z :=
  if is_avx t && (lo <=? 0) then (if hi <? a then 0 else 255) else thr2_px lo hi a.
(** Threshold with two limits, 3198-3232; unlike image_function.cpp:2034 minThreshold > maxThreshold
    is not rejected. *)
Definition SimdThreshold2 (lo hi : Z) (b : build) (t : simd_type) (m : mem)
    (inp : image) (xi yi : Z) (out : image) (xo yo w h : Z) : res mem mem :=
  twice Timeout (fun rec t =>
    if is_cpu t || is_avx512 t || (w <? getSimdSize t) then
      (if is_avx t && b_avx b then rec sse else Threshold2 lo hi m inp xi yi out xo yo w h)
    else
      guard valid_roi2 inp xi yi out xo yo w h with m;
      guard (is_gray inp && is_gray out) with m;
      let '(w, h) := OptimiseRoi w h [inp; out] in
      if compiled b t && negb (is_avx512 t) then
        rows1 (nlanes t) (v_thr2 t lo hi) (thr2_tail t lo hi) m (row_ptr inp xi yi 1) (row_ptr out xo yo 1)
          (irs inp) (irs out) w h
      else Throw m) t.

(** ** Sum *)

(** One vector step of the x86 Sum and vertical ProjectionProfile: bytes are widened to 16 bits, the halves
    added, widened to 32 bits and added (e.g. avx512::Sum 497-533, sse::Sum 1699-1733) *)
Definition wide_sum (k : nat) (d : reg) : reg :=
  let zero := setzero k in
  let s := add_epi16 (unpacklo_epi8 d zero) (unpackhi_epi8 d zero) in
  add_epi32 (view32 (unpacklo_epi16 s zero)) (view32 (unpackhi_epi16 s zero)).
(** neon::Sum 2358-2361 *)
Definition neon_sum (d : lane) : lane :=
  let s8 := vaddl (vget_high 8 d) (vget_low 8 d) in
  vaddl (vget_high 4 s8) (vget_low 4 s8).
Definition sum_vec (t : simd_type) (d : reg) : reg :=
  match t with neon => map neon_sum d | _ => wide_sum (nlanes t) d end.
(** output[0] + output[1] + ..., in uint32_t *)
Definition add_lanes (s : Z) (r : reg) : Z := fold_left (fun s v => u32 (s + v)) (concat r) s.

(** avx512::Sum 497-533, avx::Sum 989-1023, sse::Sum 1699-1733, neon::Sum 2348-2376.  [vec] is the register
    step, the state is ( sum, simdSum ). *)
Definition sum_rows (k : nat) (vec : reg -> reg) (m : mem) (imY : ptr) (rs w h : Z) : res mem Z :=
  let n := 16 * Z.of_nat k in
  do (s, acc) <- walk h [imY] [rs] (padd imY (u32 (h * rs)))
    (fun cs '(s, acc) =>
       do acc <- walk (simdWidth w n) [c0 cs] [n] (padd (c0 cs) (simdWidth w n * n))
                   (fun cs acc => do d <- loadu k m (c0 cs); Ok (add_epi32 acc (vec d))) acc;
       if 0 <? nonSimdWidth w n then
         let p := padd (c0 cs) (totalSimdWidth w n) in
         do s <- walk (nonSimdWidth w n) [p] [1] (padd p (nonSimdWidth w n))
                   (fun cs s => do a <- load m (c0 cs); Ok (u32 (s + a))) s;
         Ok (s, acc)
       else Ok (s, acc)) (0, repeat (repeat 0 4) k);
  Ok (add_lanes s acc).

(** Sum, 3115-3160 *)
Definition SimdSum (b : build) (t : simd_type) (m : mem) (im : image) (x y w h : Z) : res mem Z :=
  twice Timeout (fun rec t =>
    if is_cpu t || (w <? getSimdSize t) then
      (if is_avx t && b_avx b then rec sse else Sum m im x y w h)
    else
      guard valid_roi im x y w h with m;
      guard is_gray im with m;
      let '(w, h) := OptimiseRoi w h [im] in
      if compiled b t then sum_rows (nlanes t) (sum_vec t) m (row_ptr im x y 1) (irs im) w h
      else Throw m) t.

(** ** Accumulate *)

(** Vector access to uint32_t arrays: [n] entries from index [k] *)
Fixpoint vloads (r : list Z) (k : Z) (n : nat) : res (list Z) (list Z) :=
  match n with
  | O => Ok []
  | S n' => do v <- vnth r k; do vs <- vloads r (k + 1) n'; Ok (v :: vs)
  end.
Fixpoint vstores (r : list Z) (k : Z) (vs : list Z) : res (list Z) (list Z) :=
  match vs with
  | [] => Ok r
  | v :: vs' => do r' <- vset r k v; vstores r' (k + 1) vs'
  end.
(** _mm_storeu_si128( dst, _mm_add_epi32( data, _mm_loadu_si128( dst ) ) ) *)
Definition add_at (r : list Z) (k : Z) (data : reg) : res (list Z) (list Z) :=
  do old <- vloads r k (length (concat data));
  vstores r k (map2 (fun a b => u32 (a + b)) (concat data) old).

(** data_1 .. data_4: the bytes of a register widened to 32 bits (e.g. 129-135, 1207-1213) *)
Definition widen4 (k : nat) (d : reg) : list reg :=
  let zero := setzero k in
  let lo := unpacklo_epi8 d zero in
  let hi := unpackhi_epi8 d zero in
  map view32 [unpacklo_epi16 lo zero; unpackhi_epi16 lo zero; unpacklo_epi16 hi zero; unpackhi_epi16 hi zero].
(** neon::Accumulate 1857-1893: vaddw_u16 of the quarters of the widened data *)
Definition neon_widen4 (d : lane) : list reg :=
  let zero := repeat 0 8 in
  let lo := vaddl (vget_low 8 d) zero in
  let hi := vaddl (vget_high 8 d) zero in
  [[vget_low 4 lo]; [vget_high 4 lo]; [vget_low 4 hi]; [vget_high 4 hi]].
Definition acc_vec (t : simd_type) (d : reg) : list reg :=
  match t with neon => neon_widen4 (concat d) | _ => widen4 (nlanes t) d end.
(** The four stores; dst advances by one register each *)
Fixpoint add_all (r : list Z) (k : Z) (ds : list reg) : res (list Z) (list Z) :=
  match ds with
  | [] => Ok r
  | d :: ds' => do r' <- add_at r k d; add_all r' (k + Z.of_nat (length (concat d))) ds'
  end.
(** The model's memory reads inside functions whose exception state is the result array *)
Definition loadr (k : nat) (m : mem) (p : ptr) : res (list Z) reg :=
  do v <- loads m (span p (k * 16)); Ok (lanes k 16 v).

(** avx512::Accumulate 114-156, avx 574-616, sse 1191-1233, neon 1857-1893 *)
Definition acc_rows (k : nat) (vec : reg -> list reg) (m : mem) (imY : ptr) (rs w h : Z) (result : list Z)
    : res (list Z) (list Z) :=
  let n := 16 * Z.of_nat k in
  let width := u32 (totalSimdWidth w n + nonSimdWidth w n) in
  walk h [imY; (0, 0)] [rs; width] (padd imY (u32 (h * rs)))
    (fun cs r =>
       do r <- walk (simdWidth w n) cs [n; n] (padd (c0 cs) (simdWidth w n * n))
                 (fun cs r => do d <- loadr k m (c0 cs); add_all r (snd (c1 cs)) (vec d)) r;
       if 0 <? nonSimdWidth w n then
         let cs := map (fun p => padd p (totalSimdWidth w n)) cs in
         walk (nonSimdWidth w n) cs [1; 1] (padd (c0 cs) (nonSimdWidth w n))
           (fun cs r => do a <- load m (c0 cs); vadd r (snd (c1 cs)) a) r
       else Ok r) result.

(** Accumulate, 2554-2590; no fallback from AVX to SSE *)
Definition SimdAccumulate (b : build) (t : simd_type) (m : mem) (im : image) (x y w h : Z) (result : list Z)
    : res (list Z) (list Z) :=
  let cc := icc im in
  if is_cpu t || (u32 (u32 (w * h) * cc) <? getSimdSize t) then Accumulate m im x y w h result
  else
    guard valid_roi im x y w h with result;
    guard is_gray im with result;
    let w := u32 (w * cc) in
    guard (Z.of_nat (length result) =? u32 (w * h)) with result;
    let '(w, h) := OptimiseRoi w h [im] in
    if compiled b t then acc_rows (nlanes t) (acc_vec t) m (row_ptr im x y cc) (irs im) w h result
    else Throw result.

(** ** ProjectionProfile *)

(** neon vertical step, 2255-2275 *)
Definition neon_vsum (d : lane) : lane :=
  let zero := repeat 0 8 in
  let lo := vaddl (vget_low 8 d) zero in
  let hi := vaddl (vget_high 8 d) zero in
  let s := vadd_u16 hi lo in
  vaddl (vadd_u16 (vget_low 4 s) (vget_high 4 s)) (repeat 0 4).
Definition proj_vvec (t : simd_type) (d : reg) : reg :=
  match t with neon => map neon_vsum d | _ => wide_sum (nlanes t) d end.
(** neon horizontal step 2217-2233: data_3 and data_4 repeat the low half *)
Definition neon_hwiden4 (d : lane) : list reg :=
  let lo := vaddl (vget_low 8 d) (repeat 0 8) in
  let z := repeat 0 4 in
  [[vaddl (vget_low 4 lo) z]; [vaddl (vget_high 4 lo) z]; [vaddl (vget_low 4 lo) z]; [vaddl (vget_high 4 lo) z]].
Definition proj_hvec (t : simd_type) (d : reg) : list reg :=
  match t with neon => neon_hwiden4 (concat d) | _ => widen4 (nlanes t) d end.

(** avx512 378-468, avx 840-929, sse 1549-1638, neon 2198-2290 *)
Definition proj_horizontal (k : nat) (vec : reg -> list reg) (m : mem) (p : ptr) (rs w h : Z) (out : list Z)
    : res (list Z) (list Z) :=
  let n := 16 * Z.of_nat k in
  let tsw := totalSimdWidth w n in
  do out <- walk (simdWidth w n) [p; (0, 0)] [n; n] (padd p tsw)
    (fun cs out =>
       do acc <- walk h [c0 cs] [rs] (padd (c0 cs) (u32 (h * rs)))
                   (fun cs acc => do d <- loadr k m (c0 cs); Ok (map2 add_epi32 (vec d) acc))
                   (repeat (repeat (repeat 0 4) k) 4);
       add_all out (snd (c1 cs)) acc) out;
  if 0 <? nonSimdWidth w n then
    walk (nonSimdWidth w n) [padd p tsw; (0, tsw)] [1; 1] (padd (padd p tsw) (nonSimdWidth w n))
      (fun cs out =>
         let q := snd (c1 cs) in
         walk h [c0 cs] [rs] (padd (c0 cs) (u32 (h * rs)))
           (fun cs out => do a <- load m (c0 cs); vadd out q a) out) out
  else Ok out.

Definition proj_vertical (k : nat) (vec : reg -> reg) (m : mem) (p : ptr) (rs w h : Z) (out : list Z)
    : res (list Z) (list Z) :=
  let n := 16 * Z.of_nat k in
  walk h [p; (0, 0)] [rs; 1] (padd p (u32 (h * rs)))
    (fun cs out =>
       let q := snd (c1 cs) in
       do acc <- walk (simdWidth w n) [c0 cs] [n] (padd (c0 cs) (simdWidth w n * n))
                   (fun cs acc => do d <- loadr k m (c0 cs); Ok (add_epi32 acc (vec d)))
                   (repeat (repeat 0 4) k);
       do out <-
         (if 0 <? nonSimdWidth w n then
            let i := padd (c0 cs) (totalSimdWidth w n) in
            walk (nonSimdWidth w n) [i] [1] (padd i (nonSimdWidth w n))
              (fun cs out => do a <- load m (c0 cs); vadd out q a) out
          else Ok out);
       vadd out q (add_lanes 0 acc)) out.

(** ProjectionProfile, 2991-3024.  The exception of an out-of-range vector is not possible, so the
    state of [Throw] (the vector) is replaced by the memory. *)
Definition with_mem {A B} (m : mem) (r : res A B) : res mem B :=
  match r with Ok v => Ok v | Throw _ => Throw m | UB => UB | Timeout => Timeout end.
Definition SimdProjectionProfile (b : build) (t : simd_type) (m : mem) (im : image) (x y w h : Z)
    (horizontal : bool) : res mem (list Z) :=
  twice Timeout (fun rec t =>
    let cc := icc im in
    if is_cpu t || (u32 (u32 (w * h) * cc) <? getSimdSize t) then
      (if is_avx t && b_avx b then rec sse else ProjectionProfile m im x y w h horizontal)
    else
      guard valid_roi im x y w h with m;
      let w := u32 (w * cc) in
      let out := repeat 0 (Z.to_nat (if horizontal then w else h)) in
      let p := row_ptr im x y cc in
      if compiled b t then
        with_mem m (if horizontal then proj_horizontal (nlanes t) (proj_hvec t) m p (irs im) w h out
                    else proj_vertical (nlanes t) (proj_vvec t) m p (irs im) w h out)
      else Throw m) t.

(** ** Bit depth conversion *)

(** avx512::ConvertTo16Bit 236-261, avx 696-721, sse 1313-1338: both stores use the low halves *)
Definition to16_x86 (k : nat) (m : mem) (src dst : ptr) : res mem mem :=
  do d <- loadu k m src;
  do m <- storeu m dst (view16 (unpacklo_epi8 (setzero k) d));
  storeu m (padd dst (8 * Z.of_nat k)) (view16 (unpacklo_epi8 (setzero k) d)).
(** neon::ConvertTo16Bit 1973-1994: steps of 8 pixels *)
Definition to16_neon (m : mem) (src dst : ptr) : res mem mem :=
  do d <- loads m (span src 8); storeu m dst [vshll_n_u8_8 d].

(** The row loop of both conversions; [step] consumes [n] elements and is repeated [cnt] times *)
Definition conv_rows (n cnt tot tail : Z) (step : mem -> ptr -> ptr -> res mem mem) (f : Z -> Z)
    (m : mem) (inY outY : ptr) (rsi rso h : Z) : res mem mem :=
  walk h [outY; inY] [rso; rsi] (padd outY (u32 (h * rso)))
    (fun cs m =>
       do m <- walk cnt [c1 cs; c0 cs] [n; n] (padd (c1 cs) (cnt * n)) (fun cs m => step m (c0 cs) (c1 cs)) m;
       if 0 <? tail then
         let cs := map (fun p => padd p tot) cs in
         walk tail cs [1; 1] (padd (c0 cs) tail)
           (fun cs m => do a <- load m (c1 cs); store m (c0 cs) (f a)) m
       else Ok m) m.
Definition conv_kernel (t : simd_type) (x86 : nat -> mem -> ptr -> ptr -> res mem mem)
    (arm : mem -> ptr -> ptr -> res mem mem) (f : Z -> Z)
    (m : mem) (inY outY : ptr) (rsi rso w h : Z) : res mem mem :=
  let n := getSimdSize t in
  match t with
  | neon => conv_rows 8 (totalSimdWidth w n / 8) (totalSimdWidth w n) (nonSimdWidth w n) arm f m inY outY rsi rso h
  | _ => conv_rows n (simdWidth w n) (totalSimdWidth w n) (nonSimdWidth w n) (x86 (nlanes t)) f m inY outY rsi rso h
  end.

(** ConvertTo16Bit, 2712-2749 *)
Definition SimdConvertTo16Bit (b : build) (t : simd_type) (m : mem)
    (inp : image) (xi yi : Z) (out : image) (xo yo w h : Z) : res mem mem :=
  if is_cpu t || (w <? getSimdSize t) then ConvertTo16Bit m inp xi yi out xo yo w h
  else
    guard valid_roi inp xi yi w h with m;
    guard valid_roi out xo yo w h with m;
    guard (icc inp =? icc out) with m;
    let cc := icc inp in
    if compiled b t then
      conv_kernel t to16_x86 to16_neon (fun a => u16 (Z.shiftl a 8)) m
        (row_ptr inp xi yi 1) (row_ptr out xo yo cc) (irs inp) (irs out) (u32 (w * cc)) h
    else Throw m.

(** avx512::ConvertTo8Bit 263-289, avx 723-749, sse 1340-1366 *)
Definition to8_x86 (k : nat) (m : mem) (src dst : ptr) : res mem mem :=
  do d1 <- loads m (span src (k * 8));
  do d2 <- loads m (span (padd src (8 * Z.of_nat k)) (k * 8));
  storeu m dst (packus_epi16 (srli_epi16_8 (lanes k 8 d1)) (srli_epi16_8 (lanes k 8 d2))).
(** neon::ConvertTo8Bit 1996-2016 *)
Definition to8_neon (m : mem) (src dst : ptr) : res mem mem :=
  do d <- loads m (span src 8); storeu m dst [vshrn_n_u16_8 d].
(** ConvertTo8Bit, 2751-2788 *)
Definition SimdConvertTo8Bit (b : build) (t : simd_type) (m : mem)
    (inp : image) (xi yi : Z) (out : image) (xo yo w h : Z) : res mem mem :=
  if is_cpu t || (w <? getSimdSize t) then ConvertTo8Bit m inp xi yi out xo yo w h
  else
    guard valid_roi inp xi yi w h with m;
    guard valid_roi out xo yo w h with m;
    guard (icc inp =? icc out) with m;
    let cc := icc inp in
    if compiled b t then
      conv_kernel t to8_x86 to8_neon (fun a => u8 (Z.shiftr a 8)) m
        (row_ptr inp xi yi 1) (row_ptr out xo yo cc) (irs inp) (irs out) (u32 (w * cc)) h
    else Throw m.

(** ** ConvertToRgb *)

(** sse::ConvertToRgb 1369-1403 (SSSE3), ctrl1 .. ctrl3 *)
Definition rgb_ctrl : list lane :=
  [[0; 0; 0; 1; 1; 1; 2; 2; 2; 3; 3; 3; 4; 4; 4; 5];
   [5; 5; 6; 6; 6; 7; 7; 7; 8; 8; 8; 9; 9; 9; 10; 10];
   [10; 11; 11; 11; 12; 12; 12; 13; 13; 13; 14; 14; 14; 15; 15; 15]].
Definition rgb_sse (m : mem) (src dst : ptr) : res mem mem :=
  do d <- loadu 1 m src;
  do m <- storeu m dst (shuffle_epi8 d [nth 0 rgb_ctrl []]);
  do m <- storeu m (padd dst 16) (shuffle_epi8 d [nth 1 rgb_ctrl []]);
  storeu m (padd dst 32) (shuffle_epi8 d [nth 2 rgb_ctrl []]).
(** neon::ConvertToRgb 2018-2059 *)
Definition rgb_ctrl8 : list lane :=
  [[0; 0; 0; 1; 1; 1; 2; 2]; [2; 3; 3; 3; 4; 4; 4; 5]; [5; 5; 6; 6; 6; 7; 7; 7]].
Definition rgb_neon (m : mem) (src dst : ptr) : res mem mem :=
  do d <- loads m (span src 8);
  do m <- storeu m dst [vtbl1_u8 d (nth 0 rgb_ctrl8 [])];
  do m <- storeu m (padd dst 8) [vtbl1_u8 d (nth 1 rgb_ctrl8 [])];
  storeu m (padd dst 16) [vtbl1_u8 d (nth 2 rgb_ctrl8 [])].

Definition rgb_rows (n : Z) (step : mem -> ptr -> ptr -> res mem mem) (m : mem) (inY outY : ptr)
    (rsi rso w h : Z) : res mem mem :=
  walk h [outY; inY] [rso; rsi] (padd outY (u32 (h * rso)))
    (fun cs m =>
       do m <- walk (simdWidth w n) [c1 cs; c0 cs] [n; 3 * n] (padd (c1 cs) (simdWidth w n * n))
                 (fun cs m => step m (c0 cs) (c1 cs)) m;
       if 0 <? nonSimdWidth w n then
         let inX := padd (c1 cs) (totalSimdWidth w n) in
         let outX := padd (c0 cs) (u32 (totalSimdWidth w n * 3)) in
         walk (nonSimdWidth w n) [inX; outX] [1; 3] (padd inX (nonSimdWidth w n))
           (fun cs m => do a <- load m (c0 cs); memset m (c1 cs) a 3) m
       else Ok m) m.

(** Packets of 8 pixels on NEON (2793-2795, 2837-2838, 3033-3034) *)
Definition size8 (t : simd_type) : Z := if is_neon t then 8 else getSimdSize t.

(** ConvertToRgb, 2790-2830 *)
Definition SimdConvertToRgb (b : build) (t : simd_type) (m : mem)
    (inp : image) (xi yi : Z) (out : image) (xo yo w h : Z) : res mem mem :=
  twice Timeout (fun rec t =>
    let n := size8 t in
    if is_cpu t || is_avx t || is_avx512 t || (w <? n) then
      (if is_avx t && b_avx b then rec sse else ConvertToRgb m inp xi yi out xo yo w h)
    else
      guard valid_roi2 inp xi yi out xo yo w h with m;
      guard is_rgb out with m;
      if icc inp =? RGB then Copy m inp xi yi out xo yo w h else
      if compiled_ssse3 b t then
        rgb_rows n (if is_neon t then rgb_neon else rgb_sse) m (row_ptr inp xi yi 1) (row_ptr out xo yo RGB)
          (irs inp) (irs out) w h
      else Throw m) t.

(** ** Flip *)

(** sse::Flip 1405-1458 (SSSE3), neon::Flip 2061-2112 *)
Definition flip_sse (m : mem) (src dst : ptr) : res mem mem :=
  do d <- loadu 1 m src;
  storeu m dst (shuffle_epi8 d [[15; 14; 13; 12; 11; 10; 9; 8; 7; 6; 5; 4; 3; 2; 1; 0]]).
Definition flip_neon (m : mem) (src dst : ptr) : res mem mem :=
  do d <- loads m (span src 8); storeu m dst [vrev64_u8 d].
(** [outE]: address of the last pixel of the first output row, [rso] the row stride (negative for a
    vertical flip). *)
Definition flip_rows (n : Z) (step : mem -> ptr -> ptr -> res mem mem) (m : mem) (inY outE : ptr)
    (rsi rso w h : Z) : res mem mem :=
  walk h [inY; outE; padd outE (1 - n)] [rsi; rso; rso] (padd inY (u32 (h * rsi)))
    (fun cs m =>
       do m <- walk (simdWidth w n) [c0 cs; c2 cs] [n; - n] (padd (c0 cs) (simdWidth w n * n))
                 (fun cs m => step m (c0 cs) (c1 cs)) m;
       if 0 <? nonSimdWidth w n then
         let inX := padd (c0 cs) (totalSimdWidth w n) in
         let outX := padd (c1 cs) (- totalSimdWidth w n) in
         walk (nonSimdWidth w n) [inX; outX] [1; -1] (padd inX (nonSimdWidth w n))
           (fun cs m => do a <- load m (c0 cs); store m (c1 cs) a) m
       else Ok m) m.

(** Flip, 2832-2871 *)
Definition SimdFlip (b : build) (t : simd_type) (m : mem)
    (inp : image) (xi yi : Z) (out : image) (xo yo w h : Z) (horizontal vertical : bool) : res mem mem :=
  twice Timeout (fun rec t =>
    let n := size8 t in
    if is_cpu t || is_avx t || is_avx512 t || (w <? n) || (negb horizontal && vertical) then
      (if is_avx t && b_avx b then rec sse else Flip m inp xi yi out xo yo w h horizontal vertical)
    else
      guard valid_roi2 inp xi yi out xo yo w h with m;
      guard (is_gray inp && is_gray out) with m;
      if negb horizontal && negb vertical then Copy m inp xi yi out xo yo w h else
      if compiled_ssse3 b t then
        let step := if is_neon t then flip_neon else flip_sse in
        let inY := row_ptr inp xi yi 1 in
        if horizontal && negb vertical then
          flip_rows n step m inY (padd (row_ptr out xo yo 1) (w - 1)) (irs inp) (irs out) w h
        else
          flip_rows n step m inY
            (padd (padd (padd (dataptr out) (u32 (u32 (yo + h - 1) * irs out))) xo) (w - 1))
            (irs inp) (- irs out) w h
      else Throw m) t.

(** ** RgbToBgr *)

(** sse::RgbToBgr 1641-1670 (SSSE3); the arguments of _mm_set_epi8 are in descending order *)
Definition bgr_sse (m : mem) (src dst : ptr) : res mem mem :=
  do d <- loadu 1 m src;
  storeu m dst (shuffle_epi8 d [[2; 1; 0; 5; 4; 3; 8; 7; 6; 11; 10; 9; 14; 13; 12; 15]]).
(** avx::RgbToBgr 931-960: the shuffle works inside 128-bit lanes, bytes 15 and 17 are exchanged
    afterwards *)
Definition bgr_avx (m : mem) (src dst : ptr) : res mem mem :=
  do d <- loadu 2 m src;
  do m <- storeu m dst (shuffle_epi8 d
            [[2; 1; 0; 5; 4; 3; 8; 7; 6; 11; 10; 9; 14; 13; 12; 15];
             [16; 17; 20; 19; 18; 23; 22; 21; 26; 25; 24; 29; 28; 27; 30; 31]]);
  moves m [(padd dst 15, padd src 17); (padd dst 17, padd src 15)].
(** neon::RgbToBgr 2292-2318 *)
Definition bgr_neon (m : mem) (src dst : ptr) : res mem mem :=
  do d <- loads m (span src 8); storeu m dst [vtbl1_u8 d [2; 1; 0; 5; 4; 3; 6; 7]].
Definition bgr_step (t : simd_type) : mem -> ptr -> ptr -> res mem mem :=
  match t with neon => bgr_neon | avx => bgr_avx | _ => bgr_sse end.

Definition bgr_rows (n tsw nsw : Z) (step : mem -> ptr -> ptr -> res mem mem) (m : mem) (inY outY : ptr)
    (rsi rso h : Z) : res mem mem :=
  walk h [outY; inY] [rso; rsi] (padd outY (u32 (h * rso)))
    (fun cs m =>
       do m <- walk (tsw / n) cs [n; n] (padd (c0 cs) tsw) (fun cs m => step m (c1 cs) (c0 cs)) m;
       if 0 <? nsw then
         let cs := map (fun p => padd p tsw) cs in
         walk nsw cs [3; 3] (padd (c0 cs) nsw)
           (fun cs m => moves m [(padd (c0 cs) 2, c1 cs); (padd (c0 cs) 1, padd (c1 cs) 1);
                                 (c0 cs, padd (c1 cs) 2)]) m
       else Ok m) m.

(** RgbToBgr, 3026-3073 *)
Definition SimdRgbToBgr (b : build) (t : simd_type) (m : mem)
    (inp : image) (xi yi : Z) (out : image) (xo yo w h : Z) : res mem mem :=
  twice Timeout (fun rec t =>
    let n := size8 t in
    if is_cpu t || is_avx512 t || (u32 (w * RGB) <? n) then
      (if is_avx t && b_avx b then rec sse else RgbToBgr m inp xi yi out xo yo w h)
    else
      guard valid_roi2 inp xi yi out xo yo w h with m;
      guard (is_rgb inp && is_rgb out) with m;
      let '(w, h) := OptimiseRoi (u32 (w * RGB)) h [inp; out] in
      let rn := n / RGB * RGB in
      let short := nonSimdWidth w rn <? n mod RGB in
      let tsw := if short then u32 (totalSimdWidth w rn - rn) else totalSimdWidth w rn in
      let nsw := if short then u32 (nonSimdWidth w rn + rn) else nonSimdWidth w rn in
      if compiled_ssse3 b t || (is_avx t && b_avx b) then
        bgr_rows rn tsw nsw (bgr_step t) m (row_ptr inp xi yi RGB) (row_ptr out xo yo RGB)
          (irs inp) (irs out) h
      else Throw m) t.
