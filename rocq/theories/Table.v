(** Model of the function tables and the facade: ImageTypeManager of
    src/image_function_helper.h/.cpp, src/penguinv/penguinv.cpp and
    src/penguinv/image_manager.h.  Definitions only.

    A function pointer is a number, a null pointer None. *)
From Coq Require Import ZArith List Bool.
From Verif Require Import Base.
Import ListNotations.
Open Scope Z_scope.

(** image_function_helper.h:484-523, the fields of FunctionTableHolder *)
Inductive fname :=
| AbsoluteDifference | Accumulate | BitwiseAnd | BitwiseOr | BitwiseXor | ConvertTo16Bit | ConvertTo8Bit
| ConvertToGrayScale | ConvertToRgb | Copy | ExtractChannel | Fill | Flip | GammaCorrection | GetPixel
| Histogram | Invert | IsEqual | LookupTable | Maximum | Merge | Minimum | Normalize | ProjectionProfile
| Resize | RgbToBgr | RgbToRgba | RgbaToRgb | SetPixel | SetPixel2 | Shift | Split | Subtract | Sum
| Threshold | Threshold2 | Transpose.

Definition table : Type := fname -> option Z.

(** image_function_helper.cpp:28-34 *)
Definition setFunction (F1 F2 : option Z) (force : bool) : option Z :=
  match F1, F2 with
  | None, _ => F2
  | Some _, Some _ => if force then F2 else F1
  | Some _, None => F1
  end.

(** image_function_helper.cpp:38-74, the lines SET_FUNCTION of setupTable *)
Definition merged (f : fname) : bool :=
  match f with
  | AbsoluteDifference | Accumulate | BitwiseAnd | BitwiseOr | BitwiseXor | ConvertTo16Bit | ConvertTo8Bit
  | ConvertToGrayScale | ConvertToRgb | Copy | ExtractChannel | Fill | Flip | GammaCorrection | GetPixel
  | Histogram | Invert | IsEqual | LookupTable | Maximum | Merge | Minimum | Normalize | ProjectionProfile
  | Resize | RgbToBgr | SetPixel | SetPixel2 | Split | Subtract | Sum | Threshold | Threshold2 | Transpose => true
  | _ => false
  end.
Definition setupTable (old new : table) (force : bool) : table :=
  fun f => if merged f then setFunction (old f) (new f) force else old f.

(** std::map with keys of type uint8_t: a list in ascending order of the keys *)
Fixpoint find_key {V} (k : Z) (l : list (Z * V)) : option V :=
  match l with
  | [] => None
  | (k', v) :: l => if k =? k' then Some v else find_key k l
  end.
Fixpoint put_key {V} (k : Z) (v : V) (l : list (Z * V)) : list (Z * V) :=
  match l with
  | [] => [(k, v)]
  | (k', v') :: l' => if k <? k' then (k, v) :: l else if k =? k' then (k, v) :: l' else (k', v') :: put_key k v l'
  end.

(** The conversions of _intertypeConvertMap: only looked up, never traversed, so any order
    will do.  _image is represented by the types it holds; the image of a type is a default
    one of that type. *)
Record registry := mkReg {
  rtables : list (Z * table);
  rconvert : list (Z * Z * Z);
  rimages : list Z;
  renabled : bool
}.
(** image_function_helper.cpp:1023-1025 *)
Definition rempty : registry := mkReg [] [] [] false.

(** image_function_helper.cpp:1033-1040 *)
Definition setFunctionTable (r : registry) (ty : Z) (t : table) (force : bool) : registry :=
  mkReg (match find_key ty (rtables r) with
         | Some old => put_key ty (setupTable old t force) (rtables r)
         | None => put_key ty t (rtables r)
         end) (rconvert r) (rimages r) (renabled r).

(** image_function_helper.cpp:1042-1049 *)
Definition functionTable (r : registry) (ty : Z) : res unit table :=
  match find_key ty (rtables r) with Some t => Ok t | None => Throw tt end.

(** image_function_helper.cpp:1051-1060; the images are their types *)
Definition setConvertFunction (r : registry) (f tin tout : Z) : res registry registry :=
  guard negb (tin =? tout) with r;
  Ok (mkReg (rtables r) ((tin, tout, f) :: rconvert r) (tin :: tout :: rimages r) (renabled r)).

(** image_function_helper.cpp:1062-1070: the function that is called *)
Fixpoint find_pair (a b : Z) (l : list (Z * Z * Z)) : option Z :=
  match l with
  | [] => None
  | (a', b', f) :: l => if (a =? a') && (b =? b') then Some f else find_pair a b l
  end.
Definition convert (r : registry) (tin tout : Z) : res unit Z :=
  match find_pair tin tout (rconvert r) with Some f => Ok f | None => Throw tt end.

(** image_function_helper.cpp:1072-1079: the type of the image returned *)
Definition image_of (r : registry) (ty : Z) : res unit Z :=
  if existsb (Z.eqb ty) (rimages r) then Ok ty else Throw tt.

(** image_function_helper.cpp:1081-1089 *)
Definition imageTypes (r : registry) : list Z := map fst (rtables r).

(** image_function_helper.cpp:1091-1094 *)
Definition enable (r : registry) (e : bool) : registry := mkReg (rtables r) (rconvert r) (rimages r) e.

(** ** The tables of the library *)

(** image_function.cpp:34-70, which sets every field; the function with the name f is number 0 of that name *)
Definition cpu_table : table := fun _ => Some 0.
(** image_function_simd.cpp:52-69; the functions of Image_Function_Simd are number 1 *)
Definition simd_table : table := fun f =>
  match f with
  | AbsoluteDifference | Accumulate | BitwiseAnd | BitwiseOr | BitwiseXor | ConvertTo16Bit | ConvertTo8Bit | ConvertToRgb
  | Flip | Invert | Maximum | Minimum | ProjectionProfile | RgbToBgr | Subtract | Sum | Threshold | Threshold2 => Some 1
  | _ => None
  end.
(** opencl/image_function_opencl.cpp:41-61; number 2 *)
Definition opencl_table : table := fun f =>
  match f with
  | AbsoluteDifference | BitwiseAnd | BitwiseOr | BitwiseXor | ConvertToGrayScale | ConvertToRgb | Copy | ExtractChannel
  | Fill | GammaCorrection | Histogram | Invert | IsEqual | LookupTable | Maximum | Minimum | ProjectionProfile | SetPixel
  | Subtract | Threshold | Threshold2 => Some 2
  | _ => None
  end.

(** ** The facade *)

(** penguinv.cpp:46-62, the macro initialize: the function and imageType *)
Fixpoint substitute (f : fname) (l : list (Z * table)) : option (Z * Z) :=
  match l with
  | [] => None
  | (ty, t) :: l => match t f with Some p => Some (p, ty) | None => substitute f l end
  end.
Definition initialize (r : registry) (ty : Z) (f : fname) : res unit (Z * Z) :=
  do t <- functionTable r ty;
  match t f with
  | Some p => Ok (p, ty)
  | None => if renabled r then match substitute f (rtables r) with Some s => Ok s | None => Throw tt end else Throw tt
  end.

(** penguinv.cpp: the functions of the facade that take all their parameters (the others call
    these).  For each the images it is given, in the order of its parameters: true stands for
    Image &, false for const Image &. *)
Definition shape (f : fname) : option (list bool) :=
  match f with
  | AbsoluteDifference | BitwiseAnd | BitwiseOr | BitwiseXor | Maximum | Minimum | Subtract => Some [false; false; true]
  | Accumulate | GetPixel | Histogram | ProjectionProfile | Sum => Some [false]
  | ConvertToGrayScale | ConvertToRgb | Copy | ExtractChannel | Flip | GammaCorrection | Invert | LookupTable | Normalize
  | Resize | RgbToBgr | Threshold | Threshold2 | Transpose => Some [false; true]
  | Fill | SetPixel | SetPixel2 => Some [true]
  | IsEqual => Some [false; false]
  | Merge => Some [false; false; false; true]
  | Split => Some [false; true; true; true]
  | ConvertTo16Bit | ConvertTo8Bit | RgbToRgba | RgbaToRgb | Shift => None
  end.
(** penguinv.cpp:86-87, 181, 320, 591: the functions that pass their images through [manager] *)
Definition managed (f : fname) : bool :=
  match f with AbsoluteDifference | ConvertToGrayScale | Histogram | Threshold => true | _ => false end.

Section FACADE.
(** The contents of an image; [blank ty] is what a new image of a type holds. *)
Context {V : Type} (blank : Z -> V).
(** What the conversion number f makes of the contents of [out], given those of [in] *)
Context (conv : Z -> V -> V -> V).
(** What the function number p of name f makes of the contents of its images, and whether it
    throws *)
Context (call : fname -> Z -> list V -> list V * bool).
(** The capacity of a std::vector after the reallocation by push_back with n elements *)
Context (grow : nat -> nat).
Context (r : registry).

Record arg := mkArg { aty : Z; amut : bool; aval : V }.

(** A std::vector of images: elements, capacity, number of reallocations.  A reference to an
    element is valid as long as the vector has not been reallocated. *)
Record vec := mkVec { vels : list (Z * V); vcap : nat; vgen : nat }.
Definition push (v : vec) (x : Z * V) : vec :=
  if Nat.ltb (length (vels v)) (vcap v) then mkVec (vels v ++ [x]) (vcap v) (vgen v)
  else mkVec (vels v ++ [x]) (grow (length (vels v))) (S (vgen v)).

(** image_manager.h: _inputClone, _outputClone and _output; an element of _output is the
    number of the argument.  _input stays empty. *)
Record manager := mkMan { minp : vec; mout : vec; mown : list nat }.
Definition mempty : manager := mkMan (mkVec [] 0 0) (mkVec [] 0 0) [].

(** What operator() returns: the argument itself or an element of one of the vectors *)
Inductive ref := Own (i : nat) | InClone (k gen : nat) | OutClone (k gen : nat).

(** image_manager.h:101-106 *)
Definition clone (ty : Z) (a : arg) : res unit (Z * V) :=
  do t <- image_of r ty;
  do f <- convert r (aty a) t;
  Ok (t, conv f (aval a) (blank t)).

(** image_manager.h:69-89; an exception leaves the manager as it is then *)
Definition wrap (ty : Z) (m : manager) (i : nat) (a : arg) : res manager (manager * ref) :=
  if aty a =? ty then Ok (m, Own i)
  else if amut a then
    let m := mkMan (minp m) (mout m) (mown m ++ [i]) in
    match clone ty a with
    | Ok c => Ok (mkMan (minp m) (push (mout m) c) (mown m), OutClone (length (vels (mout m))) (vgen (push (mout m) c)))
    | _ => Throw m
    end
  else
    match clone ty a with
    | Ok c => Ok (mkMan (push (minp m) c) (mout m) (mown m), InClone (length (vels (minp m))) (vgen (push (minp m) c)))
    | _ => Throw m
    end.

(** The arguments of the call are evaluated in the order [ord], which the compiler chooses. *)
Fixpoint wrap_all (ty : Z) (args : list arg) (ord : list nat) (m : manager) : res manager (manager * list (nat * ref)) :=
  match ord with
  | [] => Ok (m, [])
  | i :: ord =>
      match nth_error args i with
      | None => UB
      | Some a =>
          do x <- wrap ty m i a;
          do y <- wrap_all ty args ord (fst x);
          Ok (fst y, (i, snd x) :: snd y)
      end
  end.

(** The image a reference stands for when the function is called; a reference into a vector
    that has been reallocated is dangling. *)
Definition deref (args : list arg) (m : manager) (x : ref) : res unit (Z * V) :=
  match x with
  | Own i => match nth_error args i with Some a => Ok (aty a, aval a) | None => UB end
  | InClone k g => if Nat.eqb g (vgen (minp m)) then match nth_error (vels (minp m)) k with Some c => Ok c | None => UB end else UB
  | OutClone k g => if Nat.eqb g (vgen (mout m)) then match nth_error (vels (mout m)) k with Some c => Ok c | None => UB end else UB
  end.
Fixpoint lookup_ref (i : nat) (l : list (nat * ref)) : option ref :=
  match l with [] => None | (j, x) :: l => if Nat.eqb i j then Some x else lookup_ref i l end.
Fixpoint deref_all (args : list arg) (m : manager) (refs : list (nat * ref)) (n i : nat) : res unit (list (Z * V)) :=
  match n with
  | O => Ok []
  | S n =>
      match lookup_ref i refs with
      | None => UB
      | Some x => do v <- deref args m x; do l <- deref_all args m refs n (S i); Ok (v :: l)
      end
  end.

Fixpoint set_nth {T} (l : list T) (i : nat) (x : T) : list T :=
  match l, i with
  | [], _ => []
  | _ :: l, O => x :: l
  | y :: l, S i => y :: set_nth l i x
  end.

(** The function writes its results: argument number i receives the i-th value, if it is an
    output. *)
Definition put_ref (args : list arg) (m : manager) (x : ref) (v : V) : list arg * manager :=
  match x with
  | Own i => match nth_error args i with
             | Some a => (if amut a then set_nth args i (mkArg (aty a) (amut a) v) else args, m)
             | None => (args, m)
             end
  | InClone _ _ => (args, m)
  | OutClone k _ => match nth_error (vels (mout m)) k with
                    | Some (t, _) => (args, mkMan (minp m) (mkVec (set_nth (vels (mout m)) k (t, v)) (vcap (mout m)) (vgen (mout m))) (mown m))
                    | None => (args, m)
                    end
  end.
Fixpoint put_all (args : list arg) (m : manager) (refs : list (nat * ref)) (i : nat) (vs : list V) : list arg * manager :=
  match vs with
  | [] => (args, m)
  | v :: vs =>
      match lookup_ref i refs with
      | None => put_all args m refs (S i) vs
      | Some x => let '(args, m) := put_ref args m x v in put_all args m refs (S i) vs
      end
  end.

(** image_manager.h:57-67: the destructor converts the clones of the outputs back, the k-th
    element of _outputClone to the k-th element of _output.  A destructor that throws ends the
    program: Throw. *)
Fixpoint restore (args : list arg) (m : manager) (own : list nat) (k : nat) : res unit (list arg) :=
  match own with
  | [] => Ok args
  | i :: own =>
      match nth_error (vels (mout m)) k, nth_error args i with
      | Some (t, v), Some a =>
          match convert r t (aty a) with
          | Ok f => restore (set_nth args i (mkArg (aty a) (amut a) (conv f v (aval a)))) m own (S k)
          | _ => Throw tt
          end
      | _, _ => UB
      end
  end.

(** The outcome of a call of the facade: the arguments afterwards, whether an exception is
    thrown, and, if a function was called, the type of the table it was taken from and the types
    of the images it was given. *)
Record outcome := mkOut { oargs : list arg; othrown : bool; ocall : option (Z * list Z) }.

Definition finish (args : list arg) (m : manager) (thrown : bool) (c : option (Z * list Z)) : res unit outcome :=
  do args <- restore args m (mown m) 0;
  Ok (mkOut args thrown c).

Definition facade (f : fname) (args : list arg) (ord : list nat) : res unit outcome :=
  match args with
  | [] => UB
  | a0 :: _ =>
      match initialize r (aty a0) f with
      | Ok (p, ty) =>
          if managed f then
            match wrap_all ty args ord mempty with
            | Ok (m, refs) =>
                do vs <- deref_all args m refs (length args) 0;
                let '(res, thrown) := call f p (map snd vs) in
                let '(args, m) := put_all args m refs 0 res in
                finish args m thrown (Some (ty, map fst vs))
            | Throw m => finish args m true None
            | UB => UB
            | Timeout => Timeout
            end
          else
            let '(res, thrown) := call f p (map aval args) in
            let '(args', _) := put_all args mempty (combine (seq 0 (length args)) (map Own (seq 0 (length args)))) 0 res in
            Ok (mkOut args' thrown (Some (ty, map aty args)))
      | _ => Ok (mkOut args true None)
      end
  end.
End FACADE.
Arguments arg V : clear implicits.
