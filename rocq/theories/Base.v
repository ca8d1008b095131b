(** Outcomes, machine integers, block memory and the loop combinator used by
    every model file.  Definitions only; lemmas are in BaseProofs.v. *)
From Coq Require Import ZArith List Bool.
Import ListNotations.
Open Scope Z_scope.

(** Outcome of running a piece of the C++ code.
    [Ok a]    normal return with result [a];
    [Throw e] a C++ exception leaves the function; [e] is the state at that
              moment (so that "nothing was modified" can be stated);
    [UB]      an operation with undefined behaviour was executed
              (out-of-bounds access, null dereference, division by zero, ...);
    [Timeout] the loop fuel of the model ran out (the loop does not terminate
              within the number of iterations its bounds suggest). *)
Inductive res (E A : Type) : Type :=
| Ok (a : A)
| Throw (e : E)
| UB
| Timeout.
Arguments Ok {E A} a.
Arguments Throw {E A} e.
Arguments UB {E A}.
Arguments Timeout {E A}.

Definition bind {E A B} (r : res E A) (f : A -> res E B) : res E B :=
  match r with
  | Ok a => f a
  | Throw e => Throw e
  | UB => UB
  | Timeout => Timeout
  end.

Declare Scope res_scope.
Delimit Scope res_scope with res.
Notation "'do' x <- a ; b" := (bind a (fun x => b))
  (at level 200, x pattern, a at level 100, b at level 200) : res_scope.
Open Scope res_scope.

(** Unsigned machine integers: C++ unsigned arithmetic is modulo 2^n. *)
Definition W32 : Z := 4294967296.
Definition u32 (z : Z) : Z := z mod W32.
Definition u16 (z : Z) : Z := z mod 65536.
Definition u8 (z : Z) : Z := z mod 256.

(** A pointer is a block identifier and an element offset in that block.
    Pointer arithmetic on one block changes the offset only. *)
Definition ptr : Type := (Z * Z)%type.
Definition padd (p : ptr) (d : Z) : ptr := (fst p, snd p + d).
Definition ptr_eqb (p q : ptr) : bool := (fst p =? fst q) && (snd p =? snd q).

(** A memory block: number of elements and contents.  The element type
    (uint8_t, uint16_t, ...) is a property of the stored values. *)
Record block := mkBlock { blen : Z; bget : Z -> Z }.
Definition mem : Type := Z -> block.

Definition len (m : mem) (b : Z) : Z := blen (m b).
Definition get (m : mem) (p : ptr) : Z := bget (m (fst p)) (snd p).
Definition inb (m : mem) (p : ptr) : bool :=
  (0 <=? snd p) && (snd p <? len m (fst p)).

Definition upd (m : mem) (p : ptr) (v : Z) : mem :=
  fun b => if b =? fst p
           then mkBlock (blen (m b)) (fun o => if o =? snd p then v else bget (m b) o)
           else m b.

(** [*p] and [*p = v]; outside the block is undefined behaviour. *)
Definition load {E} (m : mem) (p : ptr) : res E Z :=
  if inb m p then Ok (get m p) else UB.
Definition store {E} (m : mem) (p : ptr) (v : Z) : res E mem :=
  if inb m p then Ok (upd m p v) else UB.

Fixpoint loads {E} (m : mem) (ps : list ptr) : res E (list Z) :=
  match ps with
  | [] => Ok []
  | p :: ps' => do v <- load m p; do vs <- loads m ps'; Ok (v :: vs)
  end.

Fixpoint stores {E} (m : mem) (ps : list ptr) (vs : list Z) : res E mem :=
  match ps, vs with
  | p :: ps', v :: vs' => do m' <- store m p v; stores m' ps' vs'
  | _, _ => Ok m
  end.

(** [n] consecutive elements starting at [p] (memset / vector access). *)
Fixpoint span (p : ptr) (n : nat) : list ptr :=
  match n with
  | O => []
  | S n' => p :: span (padd p 1) n'
  end.

(** C++ loops [for (; cond; ) body]: [fuel] bounds the number of iterations;
    exceeding it is reported as [Timeout], never as a normal result. *)
Fixpoint loop {E S : Type} (fuel : nat) (cond : S -> bool) (body : S -> res E S) (s : S)
  : res E S :=
  match fuel with
  | O => Timeout
  | Datatypes.S f => if cond s then (do s' <- body s; loop f cond body s') else Ok s
  end.

(** Counted iteration; loops are reduced to it in the proofs and models use it
    for [for (i = a; i < a + n; ++i)] loops whose counter is a plain integer. *)
Fixpoint iterM {E S : Type} (n : nat) (k : Z) (g : Z -> S -> res E S) (s : S) : res E S :=
  match n with
  | O => Ok s
  | Datatypes.S n' => do s' <- g k s; iterM n' (k + 1) g s'
  end.

(** Fuel for a loop that is expected to run [n] times. *)
Definition fuel_of (n : Z) : nat := S (Z.to_nat n).

(** [*d1 = *s1; *d2 = *s2; ...] executed in order. *)
Fixpoint moves {E} (m : mem) (l : list (ptr * ptr)) : res E mem :=
  match l with
  | [] => Ok m
  | (d, s) :: l' => do v <- load m s; do m' <- store m d v; moves m' l'
  end.

(** memset( d, v, n ) *)
Definition memset {E} (m : mem) (d : ptr) (v : Z) (n : Z) : res E mem :=
  stores m (span d (Z.to_nat n)) (repeat v (Z.to_nat n)).

(** memcpy( d, s, n ): overlapping (even identical) ranges are undefined behaviour. *)
Definition overlaps (d s : ptr) (n : Z) : bool :=
  (fst d =? fst s) && (Z.abs (snd d - snd s) <? n).
Definition memcpy {E} (m : mem) (d s : ptr) (n : Z) : res E mem :=
  if overlaps d s n then UB
  else do vs <- loads m (span s (Z.to_nat n)); stores m (span d (Z.to_nat n)) vs.

(** std::vector element access v[i] and v[i] = x; out of range is undefined. *)
Definition vnth {E} (v : list Z) (i : Z) : res E Z :=
  if (0 <=? i) && (i <? Z.of_nat (length v)) then Ok (nth (Z.to_nat i) v 0) else UB.
Fixpoint lset (v : list Z) (i : nat) (x : Z) : list Z :=
  match v, i with
  | [], _ => []
  | _ :: v', O => x :: v'
  | a :: v', S i' => a :: lset v' i' x
  end.
Definition vset {E} (v : list Z) (i x : Z) : res E (list Z) :=
  if (0 <=? i) && (i <? Z.of_nat (length v)) then Ok (lset v (Z.to_nat i) x) else UB.

(** Pointer-walking loops
      [for ( ; p0 != pend; p0 += s0, p1 += s1, ... ) body]
    [cur] are the pointers (the first is the one compared with [pend]),
    [strides] their increments, [n] the number of iterations the code intends
    (used only as fuel). *)
Definition nullp : ptr := (-1, 0).
Definition advance (cur : list ptr) (strides : list Z) : list ptr :=
  map (fun ps => padd (fst ps) (snd ps)) (combine cur strides).
Definition walk {E T : Type} (n : Z) (cur : list ptr) (strides : list Z) (pend : ptr)
    (body : list ptr -> T -> res E T) (t : T) : res E T :=
  do s <- loop (fuel_of n)
            (fun s => negb (ptr_eqb (nth 0 (fst s) nullp) pend))
            (fun s => do t' <- body (fst s) (snd s); Ok (advance (fst s) strides, t'))
            (cur, t);
  Ok (snd s).

(** A check that throws (state [m]) when the condition does not hold. *)
Notation "'guard' b 'with' m ; k" := (if b then k else Throw m)
  (at level 200, b at level 100, m at level 100, k at level 200) : res_scope.
