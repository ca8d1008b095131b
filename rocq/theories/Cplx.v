(** Model of construction, copying, moving and destruction of ComplexData, src/math/fft_base.h
    and src/fft.cpp.  Definitions only.

    The elements are of any type [T] (kiss_fft_cpx in the code), [z] is some element.  A world
    holds the arrays by block number, the blocks that are allocated, and the objects by number;
    two names of one object are one number.  The block an allocation returns and what it
    contains are arguments; allocation never fails.  ComplexData has no copy constructor or
    copy assignment of its own: the copies here are ComplexData( const BaseComplexData & )
    (fft.cpp:39-42) and the assignment operators of BaseComplexData. *)
From Coq Require Import ZArith List Bool.
From Verif Require Import Base Image Arith Fft.
Import ListNotations.
Open Scope Z_scope.

Section CPLX.
Context (T : Type) (z : T).

Record world := mkWorld { wheap : Z -> arr T; wlive : Z -> bool; wobj : Z -> option cdata }.
Definition empty_world : world := mkWorld (fun _ => mkArr 0 (fun _ => z)) (fun _ => false) (fun _ => None).

Definition put_obj (W : world) (i : Z) (c : option cdata) : world :=
  mkWorld (wheap W) (wlive W) (fun i' => if i' =? i then c else wobj W i').
Definition put_arr (W : world) (b : Z) (a : arr T) : world :=
  mkWorld (fun b' => if b' =? b then a else wheap W b') (wlive W) (wobj W).
Definition put_live (W : world) (b : Z) (l : bool) : world :=
  mkWorld (wheap W) (fun b' => if b' =? b then l else wlive W b') (wobj W).

(** An object that does not exist cannot be used. *)
Definition object (W : world) (i : Z) : res world cdata :=
  match wobj W i with Some c => Ok c | None => UB end.

(** fft.cpp:133-136, _freeData: releasing a block twice is undefined *)
Definition release (W : world) (b : Z) : res world world :=
  if wlive W b then Ok (put_live (put_arr W b (mkArr 0 (fun _ => z))) b false) else UB.
(** fft.cpp:128-131, _allocateData *)
Definition allocate (W : world) (b size : Z) (junk : Z -> T) : world :=
  put_live (put_arr W b (mkArr size junk)) b true.

(** fft_base.h:121-130, _clean of the object [i] *)
Definition clean (W : world) (i : Z) : res world world :=
  do c <- object W i;
  do W <- match cblk c with None => Ok W | Some b => release W b end;
  Ok (put_obj W i (Some cnull)).

(** fft_base.h:74-86, resize of the object [i]; the number of elements is a uint32_t product *)
Definition resize (W : world) (i w h b : Z) (junk : Z -> T) : res world world :=
  do c <- object W i;
  if (negb (cw c =? w) || negb (ch c =? h)) && negb (w =? 0) && negb (h =? 0) then
    do W <- clean W i;
    Ok (put_obj (allocate W b (u32 (w * h)) junk) i (Some (mkC (Some b) w h)))
  else Ok W.

(** fft.cpp:138-141, memcpy of sizeof( kiss_fft_cpx ) * _width * _height bytes, a size_t product;
    an element has 8 bytes.  Reading or writing outside a block, a null pointer and overlapping
    blocks are undefined. *)
Definition copy_data (W : world) (dst src : cdata) : res world world :=
  let n := u64 (u64 (8 * cw dst) * ch dst) / 8 in
  match cblk dst, cblk src with
  | Some b, Some a =>
      if (a =? b) || (alen (wheap W a) <? n) || (alen (wheap W b) <? n) then UB
      else Ok (put_arr W b (mkArr (alen (wheap W b)) (fun k => if (0 <=? k) && (k <? n) then aget (wheap W a) k else aget (wheap W b) k)))
  | _, _ => UB
  end.

(** fft_base.h:132-140, _copy of the object [j] to the object [i]; the fields of [j] are read
    after _clean *)
Definition copy (W : world) (i j b : Z) (junk : Z -> T) : res world world :=
  do W <- clean W i;
  do d <- object W j;
  do W <- resize W i (cw d) (ch d) b junk;
  do c <- object W i;
  match cblk c with
  | None => Ok W
  | Some _ => do d <- object W j; copy_data W c d
  end.

(** fft_base.h:142-147, _swap *)
Definition swap_objects (W : world) (i j : Z) : res world world :=
  do c <- object W i;
  do d <- object W j;
  Ok (put_obj (put_obj W i (Some d)) j (Some c)).

Inductive op :=
| ONew (i : Z)                                  (* fft.cpp:26, fft_base.h:52-56 *)
| OResize (i w h b : Z) (junk : Z -> T)         (* resize *)
| OWrite (i k : Z) (x : T)                      (* data()[k] = x *)
| OCopyNew (i j b : Z) (junk : Z -> T)          (* fft.cpp:39-42 *)
| OMoveNew (i j : Z)                            (* fft.cpp:44-47 *)
| OAssign (i j b : Z) (junk : Z -> T)           (* fft_base.h:60-65 *)
| OMoveAssign (i j : Z)                         (* fft_base.h:67-72 *)
| ODestroy (i : Z).                             (* fft.cpp:49-52 *)

Definition step (W : world) (o : op) : res world world :=
  match o with
  | ONew i => Ok (put_obj W i (Some cnull))
  | OResize i w h b junk => resize W i w h b junk
  | OWrite i k x =>
      do c <- object W i;
      match cblk c with
      | Some b => do a <- wr (wheap W b) k x; Ok (put_arr W b a)
      | None => UB
      end
  | OCopyNew i j b junk => copy (put_obj W i (Some cnull)) i j b junk
  | OMoveNew i j => swap_objects (put_obj W i (Some cnull)) i j
  | OAssign i j b junk => copy W i j b junk
  | OMoveAssign i j => swap_objects W i j
  | ODestroy i => do W <- clean W i; Ok (put_obj W i None)
  end.
Fixpoint run (W : world) (l : list op) : res world world :=
  match l with [] => Ok W | o :: l => do W <- step W o; run W l end.

End CPLX.
Arguments mkWorld {T}.
Arguments wheap {T}.
Arguments wlive {T}.
Arguments wobj {T}.
