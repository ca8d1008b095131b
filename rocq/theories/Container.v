(** Model of the image container, src/image_buffer.h.  A program state holds the image
    objects (by name), the memory and the set of live allocations.
    Not modelled: operator==, the getters, and running out of memory.  The allocator is
    taken to return a block that is not in use (its own model is Alloc.v). *)
From Coq Require Import ZArith List Bool.
From Verif Require Import Base Image.
Import ListNotations.
Open Scope Z_scope.

Record cstate := mkC {
  cim : Z -> option image;  (** image objects *)
  cmem : mem;
  clive : Z -> bool;        (** blocks allocated and not yet freed *)
  cnext : Z                 (** next block to hand out *)
}.

Definition set_img (st : cstate) (a : Z) (im : option image) : cstate :=
  mkC (fun b => if b =? a then im else cim st b) (cmem st) (clive st) (cnext st).

(** image_buffer.h:293-296, _allocate: a new block of [n] elements with arbitrary contents *)
Definition alloc (st : cstate) (n : Z) : cstate * ptr :=
  let b := cnext st in
  (mkC (cim st) (fun k => if k =? b then mkBlock n (bget (cmem st b)) else cmem st k)
       (fun k => if k =? b then true else clive st k) (b + 1), (b, 0)).

(** image_buffer.h:298-301, _deallocate: freeing anything but a live block is undefined *)
Definition dealloc (st : cstate) (p : ptr) : res cstate cstate :=
  if clive st (fst p) && (snd p =? 0)
  then Ok (mkC (cim st) (fun k => if k =? fst p then mkBlock 0 (bget (cmem st k)) else cmem st k)
               (fun k => if k =? fst p then false else clive st k) (cnext st))
  else UB.

(** image_buffer.h:337-356: member initialisers *)
Definition default_image (ty : Z) : image := mkImage 0 0 1 1 0 None ty.

(** image_buffer.h:90-93, 136-139, 237-240: row size in uint32_t *)
Definition row_size (w cc al : Z) : Z :=
  let r := u32 (w * cc) in
  if negb (r mod al =? 0) then u32 (u32 (r / al + 1) * al) else r.

(** image_buffer.h:100-110, clear *)
Definition clear (st : cstate) (a : Z) (im : image) : res cstate cstate :=
  do st <- (match idata im with Some p => dealloc st p | None => Ok st end);
  Ok (set_img st a (Some (mkImage 0 0 (icc im) (ial im) 0 None (ity im)))).

(** image_buffer.h:83-98, resize *)
Definition resize (st : cstate) (a : Z) (im : image) (w h : Z) : res cstate cstate :=
  if (0 <? w) && (0 <? h) && (negb (w =? iw im) || negb (h =? ih im)) then
    do st <- clear st a im;
    let rs := row_size w (icc im) (ial im) in
    let '(st, p) := alloc st (h * rs) in
    Ok (set_img st a (Some (mkImage w h (icc im) (ial im) rs (Some p) (ity im))))
  else Ok st.

(** image_buffer.h:169-175, setColorCount *)
Definition setColorCount (st : cstate) (a : Z) (im : image) (cc : Z) : res cstate cstate :=
  if (0 <? cc) && negb (icc im =? cc) then
    do st <- clear st a im;
    Ok (set_img st a (Some (mkImage 0 0 cc (ial im) 0 None (ity im))))
  else Ok st.

(** image_buffer.h:182-188, setAlignment *)
Definition setAlignment (st : cstate) (a : Z) (im : image) (al : Z) : res cstate cstate :=
  if (0 <? al) && negb (al =? ial im) then
    do st <- clear st a im;
    Ok (set_img st a (Some (mkImage 0 0 (icc im) al 0 None (ity im))))
  else Ok st.

(** image_buffer.h:212-232, copy: the source is read again after clear(), which matters when
    it is the destination itself.  sizeof(T) * height * rowSize is a size_t product. *)
Definition copy (st : cstate) (a : Z) (im : image) (b : Z) (src : image) : res cstate cstate :=
  guard (ity im =? ity src) with st;
  do st <- clear st a im;
  match cim st b with
  | None => UB
  | Some src =>
      let geo d := mkImage (iw src) (ih src) (icc src) (ial src) (irs src) d (ity im) in
      match idata src with
      | None => Ok (set_img st a (Some (geo None)))
      | Some q =>
          let '(st, p) := alloc st (ih src * irs src) in
          do m <- memcpy (cmem st) p q (ih src * irs src);
          Ok (set_img (mkC (cim st) m (clive st) (cnext st)) a (Some (geo (Some p))))
      end
  end.

(** image_buffer.h:199-210, swap *)
Definition swap (st : cstate) (a b : Z) (ia ib : image) : cstate :=
  set_img (set_img st a (Some ib)) b (Some ia).

(** image_buffer.h:234-256, mutate; the flag is its result *)
Definition mutate (im : image) (w h cc al : Z) : image * bool :=
  if (0 <? cc) && (0 <? al) then
    let rs := row_size w cc al in
    if negb (u32 (rs * h) =? u32 (irs im * ih im)) then (im, false)
    else (mkImage w h cc al rs (idata im) (ity im), true)
  else (im, false).

(** image_buffer.h:122-142, assign: takes over a buffer of [n] elements that the caller
    has allocated for it *)
Definition assign (st : cstate) (a : Z) (im : image) (n w h cc al : Z) : res cstate cstate :=
  guard (negb ((w =? 0) || (h =? 0) || (cc =? 0) || (al =? 0))) with st;
  do st <- clear st a im;
  let '(st, p) := alloc st n in
  Ok (set_img st a (Some (mkImage w h cc al (row_size w cc al) (Some p) (ity im)))).

(** The operations of a program on its image objects. *)
Inductive cop :=
| CNew (a ty w h cc al : Z)    (** constructor of an object named a *)
| CDelete (a : Z)              (** destructor *)
| CCopyCtor (a b : Z)          (** a( b ) *)
| CMoveCtor (a b : Z)          (** a( std::move( b ) ) *)
| CCopy (a b : Z)              (** a = b *)
| CMove (a b : Z)              (** a = std::move( b ) *)
| CSwap (a b : Z)
| CResize (a w h : Z)
| CClear (a : Z)
| CSetColorCount (a cc : Z)
| CSetAlignment (a al : Z)
| CMutate (a w h cc al : Z)
| CAssign (a n w h cc al : Z)
| CFill (a v : Z)
| CWrite (a o v : Z).          (** a.data()[o] = v *)

Definition with_img {A} (st : cstate) (a : Z) (k : image -> res cstate A) : res cstate A :=
  match cim st a with Some im => k im | None => UB end.
Definition new_img (st : cstate) (a ty : Z) : res cstate cstate :=
  match cim st a with Some _ => UB | None => Ok (set_img st a (Some (default_image ty))) end.

(** Constructors: image_buffer.h:38-45 (the member functions see the object as it is after
    each call), 47-51, 53-56.  Destructor 78-81. *)
Definition cstep (st : cstate) (o : cop) : res cstate cstate :=
  match o with
  | CNew a ty w h cc al =>
      do st <- new_img st a ty;
      do st <- with_img st a (fun im => setColorCount st a im cc);
      do st <- with_img st a (fun im => setAlignment st a im al);
      with_img st a (fun im => resize st a im w h)
  | CDelete a =>
      do st <- with_img st a (fun im => clear st a im);
      Ok (set_img st a None)
  | CCopyCtor a b =>
      with_img st b (fun src =>
        do st <- new_img st a (ity src);
        with_img st a (fun im => copy st a im b src))
  | CMoveCtor a b =>
      with_img st b (fun src =>
        do st <- new_img st a 0;
        with_img st a (fun im => Ok (swap st a b im src)))
  | CCopy a b => with_img st a (fun im => with_img st b (fun src => copy st a im b src))
  | CMove a b | CSwap a b => with_img st a (fun im => with_img st b (fun src => Ok (swap st a b im src)))
  | CResize a w h => with_img st a (fun im => resize st a im w h)
  | CClear a => with_img st a (fun im => clear st a im)
  | CSetColorCount a cc => with_img st a (fun im => setColorCount st a im cc)
  | CSetAlignment a al => with_img st a (fun im => setAlignment st a im al)
  | CMutate a w h cc al => with_img st a (fun im => Ok (set_img st a (Some (fst (mutate im w h cc al)))))
  | CAssign a n w h cc al => with_img st a (fun im => assign st a im n w h cc al)
  | CFill a v =>
      with_img st a (fun im =>
        match idata im with
        | None => Ok st
        | Some p =>
            do m <- memset (cmem st) p v (ih im * irs im);
            Ok (mkC (cim st) m (clive st) (cnext st))
        end)
  | CWrite a k v =>
      with_img st a (fun im =>
        match idata im with
        | None => UB
        | Some p =>
            do m <- store (cmem st) (padd p k) v;
            Ok (mkC (cim st) m (clive st) (cnext st))
        end)
  end.

(** A program: the operations run one after the other; an exception of one operation is
    caught and the program goes on with the state the operation left. *)
Fixpoint crun (st : cstate) (ops : list cop) : res cstate cstate :=
  match ops with
  | [] => Ok st
  | o :: ops' =>
      match cstep st o with
      | Ok st' | Throw st' => crun st' ops'
      | UB => UB
      | Timeout => Timeout
      end
  end.

Definition cinit (m : mem) : cstate := mkC (fun _ => None) m (fun _ => false) 0.
