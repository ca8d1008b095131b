(** Model of the memory allocator: src/memory/memory_allocator.h (BaseMemoryAllocator) and
    src/memory/cpu_memory.h (cpu_Memory::MemoryAllocator).
    Addresses are integers.  [new] is an oracle: the address it returns is part of the call
    (the callers of the model say what [new] may return).  The mutex is modelled as a flag:
    locking a mutex that will never be unlocked is the outcome [Timeout].
    Not modelled: calls from several threads at a time (every operation but the filling of
    the free lists in [reserve] runs under the mutex), the destructor. *)
From Coq Require Import ZArith List Bool.
From Verif Require Import Base.
Import ListNotations.
Open Scope Z_scope.

Definition u64 (z : Z) : Z := z mod 2 ^ 64.

(** std::set<size_t> as an increasing list *)
Fixpoint sinsert (o : Z) (l : list Z) : list Z :=
  match l with
  | [] => [o]
  | x :: t => if o <? x then o :: l else if o =? x then l else x :: sinsert o t
  end.
Fixpoint serase (o : Z) (l : list Z) : list Z :=
  match l with
  | [] => []
  | x :: t => if x =? o then t else x :: serase o t
  end.
Fixpoint smem (o : Z) (l : list Z) : bool :=
  match l with [] => false | x :: t => (x =? o) || smem o t end.
(** the element after [o], the element before [o] *)
Fixpoint snext (o : Z) (l : list Z) : option Z :=
  match l with
  | [] => None
  | x :: t => if x =? o then match t with y :: _ => Some y | [] => None end else snext o t
  end.
Fixpoint sprev (o : Z) (l : list Z) : option Z :=
  match l with
  | [] => None
  | x :: t => match t with
              | y :: _ => if y =? o then Some x else sprev o t
              | [] => None
              end
  end.

(** std::vector<std::set<size_t>>; writing outside it is undefined *)
Definition level (fc : list (list Z)) (i : nat) : list Z := nth i fc [].
Fixpoint setl (fc : list (list Z)) (i : nat) (l : list Z) : list (list Z) :=
  match fc, i with
  | [], _ => []
  | _ :: t, O => l :: t
  | x :: t, S j => x :: setl t j l
  end.

Record astate := mkA {
  adata : option Z;            (** _data: address of the arena block *)
  asize : Z;                   (** _size *)
  afc : list (list Z);         (** _freeChunk *)
  aallocd : list (Z * nat);    (** _allocatedChunk: offset -> level *)
  alocked : bool;              (** _lock *)
  aheap : list (Z * Z)         (** live heap blocks made by allocate: address, bytes *)
}.

(** memory_allocator.h:82-93, _getAllocationLevel: after 64 shifts the variable is zero and
    the loop never ends *)
Fixpoint alloc_level {E} (fuel : nat) (size : Z) (lv : nat) (init : Z) : res E nat :=
  if size <? init then
    match fuel with
    | O => Timeout
    | S f => alloc_level f (u64 (size * 2)) (S lv) init
    end
  else Ok lv.
Definition getAllocationLevel {E} (init : Z) : res E nat := alloc_level 64 1 0 init.

(** memory_allocator.h:96-125, _split *)
Fixpoint find_level (i n : nat) (fc : list (list Z)) : option nat :=
  match n with
  | O => None
  | S k => match level fc i with [] => find_level (S i) k fc | _ => Some i end
  end.
Fixpoint split_down {E} (steps start : nat) (fc : list (list Z)) : res E (list (list Z)) :=
  match steps with
  | O => Ok fc
  | S k =>
      match level fc start, start with
      | [], _ | _, O => UB
      | o :: rest, S lo =>
          let fc := setl fc lo (sinsert (o + 2 ^ Z.of_nat lo) (sinsert o (level fc lo))) in
          split_down k lo (setl fc start rest)
      end
  end.
Definition split {E} (from : nat) (fc : list (list Z)) : res E (option (list (list Z))) :=
  match find_level from (length fc - from) fc with
  | None => Ok None
  | Some start => do fc <- split_down (start - from) start fc; Ok (Some fc)
  end.

(** memory_allocator.h:128-160, _merge: [find] must succeed, the level above must exist *)
Fixpoint merge {E} (n lv : nat) (off : Z) (fc : list (list Z)) : res E (list (list Z)) :=
  match n with
  | O => Ok fc
  | S k =>
      let l := level fc lv in
      let up fc o := if Nat.ltb (S lv) (length fc) then Ok (setl fc (S lv) (sinsert o (level fc (S lv)))) else UB in
      let ms := 2 ^ Z.of_nat lv in
      if negb (smem off l) then UB else
      let left (_ : unit) :=
        match sprev off l with
        | Some p => if off - p =? ms
                    then do fc <- up fc p; merge k (S lv) p (setl fc lv (serase off (serase p l)))
                    else Ok fc
        | None => Ok fc
        end in
      match snext off l with
      | Some q => if q - off =? ms
                  then do fc <- up fc off; merge k (S lv) off (setl fc lv (serase q (serase off l)))
                  else left tt
      | None => left tt
      end
  end.

(** cpu_memory.h:121-124: first address of the arena, aligned to 32 *)
Definition aligned (d : Z) : Z := if d mod 32 =? 0 then d else d + (32 - d mod 32).
Definition abase (st : astate) : Z := match adata st with Some d => aligned d | None => 0 end.

(** memory_allocator.h:50-69: filling of the free lists *)
Fixpoint fill {E} (fuel : nat) (used size : Z) (fc : list (list Z)) : res E (list (list Z)) :=
  if 0 <? size then
    match fuel with
    | O => Timeout
    | S f =>
        do lv <- getAllocationLevel size;
        let '(value, lv) := if size <? 2 ^ Z.of_nat lv then (2 ^ Z.of_nat lv / 2, pred lv)
                            else (2 ^ Z.of_nat lv, lv) in
        let fc := if used =? 0 then repeat [] (S lv) else fc in
        if Nat.ltb lv (length fc)
        then fill f (used + value) (size - value) (setl fc lv (sinsert used (level fc lv)))
        else UB
    end
  else Ok fc.

(** memory_allocator.h:38-70, reserve with cpu_memory.h:111-129, _allocate and :132-141,
    _deallocate; [d] is the address [new] returns.  The exception leaves the mutex locked. *)
Definition reserve (st : astate) (size d : Z) : res astate astate :=
  guard (negb (size =? 0)) with st;
  if size =? asize st then Ok st else
  if alocked st then Timeout else
  match aallocd st with
  | _ :: _ => Throw (mkA (adata st) (asize st) (afc st) (aallocd st) true (aheap st))
  | [] =>
      do fc <- fill 64 0 size [];
      Ok (mkA (Some d) size fc [] false (aheap st))
  end.

(** cpu_memory.h:53-77, allocate<T>( n ) with sizeof(T) = [sz]; [h] is the address [new]
    returns.  A request of 2^63 bytes or more makes [new] throw. *)
Definition allocate (st : astate) (n sz h : Z) : res astate (astate * Z) :=
  if alocked st then Timeout else
  let heap (st : astate) :=
    guard (n * sz <? 2 ^ 63) with st;
    Ok (mkA (adata st) (asize st) (afc st) (aallocd st) false ((h, n * sz) :: aheap st), h) in
  match adata st with
  | None => heap st
  | Some d =>
      let overall := u64 (n * sz) in
      if overall <? asize st then
        do lv <- getAllocationLevel overall;
        do r <- split lv (afc st);
        match r with
        | None => heap st
        | Some fc =>
            match level fc lv with
            | [] => UB
            | o :: rest =>
                Ok (mkA (Some d) (asize st) (setl fc lv rest)
                        (if existsb (fun c => fst c =? o) (aallocd st) then aallocd st else (o, lv) :: aallocd st)
                        false (aheap st),
                    aligned d + o)
            end
        end
      else heap st
  end.

(** cpu_memory.h:81-99, free; delete[] of anything but a live heap block or null is
    undefined *)
Definition free (st : astate) (a : Z) : res astate astate :=
  if alocked st then Timeout else
  let heap (_ : unit) :=
    if a =? 0 then Ok st else
    if existsb (fun b => fst b =? a) (aheap st)
    then Ok (mkA (adata st) (asize st) (afc st) (aallocd st) false (filter (fun b => negb (fst b =? a)) (aheap st)))
    else UB in
  match adata st with
  | None => heap tt
  | Some d =>
      if aligned d <=? a then
        match find (fun c => fst c =? a - aligned d) (aallocd st) with
        | Some (o, lv) =>
            if Nat.ltb lv (length (afc st)) then
              let fc := setl (afc st) lv (sinsert o (level (afc st) lv)) in
              do fc <- merge (length fc - lv) lv o fc;
              Ok (mkA (Some d) (asize st) fc (filter (fun c => negb (fst c =? o)) (aallocd st)) false (aheap st))
            else UB
        | None => heap tt
        end
      else heap tt
  end.

Definition ainit : astate := mkA None 0 [] [] false [].

(** A program using the allocator, with the list of the addresses and byte counts it
    holds. *)
Inductive aop := AReserve (size d : Z) | AAlloc (n sz h : Z) | AFree (a : Z).
Definition astep (s : astate * list (Z * Z)) (o : aop) : res astate (astate * list (Z * Z)) :=
  let '(st, live) := s in
  match o with
  | AReserve size d => do st <- reserve st size d; Ok (st, live)
  | AAlloc n sz h => do r <- allocate st n sz h; Ok (fst r, (snd r, n * sz) :: live)
  | AFree a => do st <- free st a; Ok (st, filter (fun b => negb (fst b =? a)) live)
  end.
Fixpoint arun (s : astate * list (Z * Z)) (ops : list aop) : res astate (astate * list (Z * Z)) :=
  match ops with
  | [] => Ok s
  | o :: t => do s <- astep s o; arun s t
  end.
