(* ModelCore.v - types, arguments, functions, overload sets.
   Models src/ref_type.h, src/argument.cpp, src/type.cpp, src/function.cpp,
   src/overloads.{cpp,tcc}, src/field.cpp, src/traits.cpp. *)
From Coq Require String.
Import String.StringSyntax.
From Verif Require Import Base.
Local Open Scope outcome_scope.

(* src/ref_type.h 17-22 *)
Inductive reftype := Copy | LValue | RValue.

Definition ref_eqb (a b : reftype) : bool :=
  match a, b with
  | Copy, Copy | LValue, LValue | RValue, RValue => true
  | _, _ => false
  end.

(* src/ref_type.h 65-68: testConstConversion(fromIsConst, toIsConst) *)
Definition testConstConversion (from to : bool) : bool := Bool.eqb from to || to.

(* src/argument.h 19-24 *)
Inductive grade := MNone | MPartial | MExact.

Definition grade_eqb (a b : grade) : bool :=
  match a, b with
  | MNone, MNone | MPartial, MPartial | MExact, MExact => true
  | _, _ => false
  end.

(* src/argument.cpp 18-23: combine *)
Definition combine (a b : grade) : grade :=
  if grade_eqb a MNone || grade_eqb b MNone then MNone
  else if grade_eqb a MPartial || grade_eqb b MPartial then MPartial
  else MExact.

(* A `const Type*`: index in the heap of types. *)
Definition tptr := nat.

(* src/argument.h 34-66: Argument = (type, refType, isConst).  The default
   constructor leaves refType_ uninitialised (src/argument.cpp 43-44); values
   built that way are not modelled here (the type is then void). *)
Record argument := Arg { a_type : tptr; a_ref : reftype; a_const : bool }.

(* src/argument.cpp 82-89: operator== *)
Definition arg_eqb (a b : argument) : bool :=
  Nat.eqb (a_type a) (a_type b) && ref_eqb (a_ref a) (a_ref b) && Bool.eqb (a_const a) (a_const b).

(* src/argument.cpp 58-64, 66-72, 74-80 *)
Definition isConstRef (a : argument) : bool := a_const a && ref_eqb (a_ref a) LValue.
Definition isTemporary (a : argument) : bool := ref_eqb (a_ref a) RValue || ref_eqb (a_ref a) Copy.
Definition isLValueRef (a : argument) : bool := negb (a_const a) && ref_eqb (a_ref a) LValue.

(* src/function.h 28-70: Function.  f_code stands for the wrapper pointer `fn`
   (identity of the callable); its invocation is modelled in ModelValue.v. *)
Record fn := Fn { f_name : str; f_ret : argument; f_args : list argument; f_code : nat }.

(* src/field.h 17-36: Field (its traits are modelled by names only) *)
Record field := Field { fd_name : str; fd_arg : argument; fd_offset : N; fd_traits : list str }.

(* src/overloads.h: an Overloads object is the vector of functions in
   registration order (its traits are not modelled). *)
Definition overloads := list fn.

(* src/type.h 17-94: Type.  Trait values are not modelled, only their names. *)
Record typerec := Type_ {
  t_id : str;
  t_parent : option tptr;
  t_traits : list str;
  t_pointer : str;
  t_pointee : option tptr;
  t_fields : list (str * field);
  t_fns : list (str * overloads) }.

(* src/type.cpp 19-22: Type::Type(id) *)
Definition newType (id : str) : typerec := Type_ id None [] [] None [] [].

(* All the type objects of the process, and which of them are
   reflect::type<void>() and reflect::type<Value>(). *)
Record heap := Heap { h_types : list typerec; h_void : tptr; h_value : tptr }.

Definition tget (H : heap) (p : tptr) : option typerec := nth_error (h_types H) p.

(* Default fuel of the recursions along parent/pointee links: one more than the
   number of type objects (a longer run revisits a type). *)
Definition fuel_of (H : heap) : nat := S (List.length (h_types H)).

(* src/traits.cpp 39-44: Traits::is *)
Definition is_trait (t : typerec) (trait : str) : bool := smem trait (t_traits t).

(* src/type.cpp 234-239: isPointer *)
Definition isPointer (t : typerec) : bool := is_trait t (lit "pointer").

(* src/type.cpp 24-36: Type::isChildOf.
   Simplification: if a pointer type has a null pointee_ the C++ dereferences
   null when it recurses; both null cases are UB here. *)
Fixpoint isChildOf_f (n : nat) (H : heap) (this other : tptr) : outcome bool :=
  match n with
  | O => OutOfFuel
  | S n' =>
    if Nat.eqb this other then Ok true else
    match tget H this, tget H other with
    | Some t, Some o =>
      if isPointer t && isPointer o then
        if negb (str_eqb (t_pointer t) (t_pointer o)) then Ok false else
        match t_pointee t, t_pointee o with
        | Some pt, Some po => isChildOf_f n' H pt po
        | _, _ => UB
        end
      else
        match t_parent t with
        | None => Ok false
        | Some p => isChildOf_f n' H p other
        end
    | _, _ => UB
    end
  end.
Definition isChildOf (H : heap) := isChildOf_f (fuel_of H) H.

(* src/type.cpp 38-43: Type::isParentOf *)
Definition isParentOf (H : heap) (this other : tptr) : outcome bool := isChildOf H other this.

(* src/type.cpp 128-134: Type::hasFunction *)
Fixpoint hasFunction_f (n : nat) (H : heap) (this : tptr) (name : str) : outcome bool :=
  match n with
  | O => OutOfFuel
  | S n' =>
    match tget H this with
    | None => UB
    | Some t =>
      if ahas name (t_fns t) then Ok true else
      match t_parent t with
      | Some p => hasFunction_f n' H p name
      | None => Ok false
      end
    end
  end.
Definition hasFunction (H : heap) := hasFunction_f (fuel_of H) H.

(* src/type.cpp 147-158: Type::function(fn) const *)
Fixpoint function_f (n : nat) (H : heap) (this : tptr) (name : str) : outcome overloads :=
  match n with
  | O => OutOfFuel
  | S n' =>
    match tget H this with
    | None => UB
    | Some t =>
      match afind name (t_fns t) with
      | Some o => Ok o
      | None =>
        match t_parent t with
        | None => Abort
        | Some p => function_f n' H p name
        end
      end
    end
  end.
Definition function (H : heap) := function_f (fuel_of H) H.

(* src/type.cpp 136-145: Type::function(fn) (non const): immediate functions only *)
Definition function_immediate (H : heap) (this : tptr) (name : str) : outcome overloads :=
  match tget H this with
  | None => UB
  | Some t => match afind name (t_fns t) with Some o => Ok o | None => Abort end
  end.

(* src/type.cpp 202-208: Type::hasField *)
Fixpoint hasField_f (n : nat) (H : heap) (this : tptr) (name : str) : outcome bool :=
  match n with
  | O => OutOfFuel
  | S n' =>
    match tget H this with
    | None => UB
    | Some t =>
      if ahas name (t_fields t) then Ok true else
      match t_parent t with
      | Some p => hasField_f n' H p name
      | None => Ok false
      end
    end
  end.
Definition hasField (H : heap) := hasField_f (fuel_of H) H.

(* src/type.cpp 221-232: Type::field(field) const *)
Fixpoint field_f (n : nat) (H : heap) (this : tptr) (name : str) : outcome field :=
  match n with
  | O => OutOfFuel
  | S n' =>
    match tget H this with
    | None => UB
    | Some t =>
      match afind name (t_fields t) with
      | Some o => Ok o
      | None =>
        match t_parent t with
        | None => Abort
        | Some p => field_f n' H p name
        end
      end
    end
  end.
Definition field_ (H : heap) := field_f (fuel_of H) H.

(* src/type.cpp 103-113: Type::functions(result): names of this type in map
   iteration order, then those of the ancestors *)
Fixpoint functions_acc (n : nat) (H : heap) (this : tptr) (acc : list str) : outcome (list str) :=
  match n with
  | O => OutOfFuel
  | S n' =>
    match tget H this with
    | None => UB
    | Some t =>
      let acc' := acc ++ akeys (t_fns t) in
      match t_parent t with
      | Some p => functions_acc n' H p acc'
      | None => Ok acc'
      end
    end
  end.

(* src/type.cpp 177-187: Type::fields(result) *)
Fixpoint fields_acc (n : nat) (H : heap) (this : tptr) (acc : list str) : outcome (list str) :=
  match n with
  | O => OutOfFuel
  | S n' =>
    match tget H this with
    | None => UB
    | Some t =>
      let acc' := acc ++ akeys (t_fields t) in
      match t_parent t with
      | Some p => fields_acc n' H p acc'
      | None => Ok acc'
      end
    end
  end.

(* std::sort on strings (insertion sort: any correct sort gives the same list,
   since equal strings are indistinguishable) *)
Fixpoint insert_sorted (x : str) (l : list str) : list str :=
  match l with
  | [] => [x]
  | y :: l' => if str_ltb y x then y :: insert_sorted x l' else x :: l
  end.
Fixpoint sort_strs (l : list str) : list str :=
  match l with
  | [] => []
  | x :: l' => insert_sorted x (sort_strs l')
  end.

(* std::unique + erase: drop elements equal to their predecessor *)
Fixpoint unique_strs (l : list str) : list str :=
  match l with
  | [] => []
  | x :: l' =>
    match l' with
    | [] => [x]
    | y :: _ => if str_eqb x y then unique_strs l' else x :: unique_strs l'
    end
  end.

(* src/type.cpp 115-126 *)
Definition functions (H : heap) (this : tptr) : outcome (list str) :=
  do r <- functions_acc (fuel_of H) H this []; Ok (unique_strs (sort_strs r)).

(* src/type.cpp 189-200 *)
Definition fields (H : heap) (this : tptr) : outcome (list str) :=
  do r <- fields_acc (fuel_of H) H this []; Ok (unique_strs (sort_strs r)).

(* src/type.cpp 45-50: "operator " + other->id() + "()" and hasConverter *)
Definition converterName (id : str) : str := lit "operator " ++ id ++ lit "()".

Definition hasConverter (H : heap) (this other : tptr) : outcome bool :=
  match tget H other with
  | None => UB
  | Some o => hasFunction H this (converterName (t_id o))
  end.

(* src/type.cpp 52-64: converter *)
Definition converter (H : heap) (this other : tptr) : outcome fn :=
  match tget H other with
  | None => UB
  | Some o =>
    do fns <- function H this (converterName (t_id o));
    match fns with
    | [] => UB
    | [f] => Ok f
    | _ => Abort
    end
  end.

(* src/argument.cpp 91-132: Argument::isConvertibleTo.
   `a` is *this, `t` is target.  Numbers refer to the source lines. *)
Definition isConvertibleTo (H : heap) (a t : argument) : outcome grade :=
  if arg_eqb a t then Ok MExact else                                          (* 97 *)
  if xorb (Nat.eqb (a_type a) (h_value H)) (Nat.eqb (a_type t) (h_value H))   (* 99-100 *)
  then Ok MExact else
  do conv <- hasConverter H (a_type a) (a_type t);                            (* 104 *)
  if conv then
    (if negb (ref_eqb (a_ref t) LValue) then Ok MPartial else Ok MNone)       (* 105-106 *)
  else
  if negb (ref_eqb (a_ref t) Copy) && negb (testConstConversion (a_const a) (a_const t))
  then Ok MNone else                                                          (* 109-112 *)
  let isExact := ref_eqb (a_ref t) Copy && ref_eqb (a_ref a) RValue in        (* 102, 113 *)
  if ref_eqb (a_ref t) LValue && negb (a_const t)
     && (a_const a || negb (ref_eqb (a_ref a) LValue))
  then Ok MNone else                                                          (* 115-119 *)
  if ref_eqb (a_ref t) RValue && negb (ref_eqb (a_ref a) RValue)
  then Ok MNone else                                                          (* 121-123 *)
  do parent <- isParentOf H (a_type t) (a_type a);
  if negb parent then Ok MNone else                                           (* 125 *)
  if isExact then Ok MExact else                                              (* 127 *)
  if Bool.eqb (a_const a) (a_const t) && ref_eqb (a_ref a) (a_ref t)
  then Ok MExact                                                              (* 128-129 *)
  else Ok MPartial.                                                           (* 131 *)

(* src/function.cpp 51-72: testReturn(value, target) *)
Definition testReturn (H : heap) (value target : argument) : outcome grade :=
  if Nat.eqb (a_type value) (h_void H) then Ok MExact else
  if Nat.eqb (a_type target) (h_void H) then
    (if negb (Nat.eqb (a_type value) (h_value H)) then Ok MNone
     else if ref_eqb (a_ref value) LValue then Ok MNone
     else Ok MExact)
  else
  do m <- isConvertibleTo H target value;
  if grade_eqb m MNone then Ok MNone else
  if isTemporary target && isConstRef value then Ok MNone else
  Ok MExact.

(* src/function.cpp 82-88: the loop of testArguments on equally long vectors *)
Fixpoint testArguments_loop (H : heap) (m : grade) (value target : list argument) : outcome grade :=
  match value, target with
  | v :: value', t :: target' =>
    do c <- isConvertibleTo H v t;
    let m' := combine m c in
    if grade_eqb m' MNone then Ok MNone else testArguments_loop H m' value' target'
  | _, _ => Ok m
  end.

(* src/function.cpp 74-89: testArguments *)
Definition testArguments (H : heap) (value target : list argument) : outcome grade :=
  if negb (Nat.eqb (List.length value) (List.length target)) then Ok MNone
  else testArguments_loop H MExact value target.

(* src/function.cpp 100-107: Function::test(ret, args); also testParams
   (function.tcc 142-153) and test<Fn>() (128-140) once their template
   parameters are reflected to Arguments *)
Definition test_sig (H : heap) (f : fn) (ret : argument) (args : list argument) : outcome grade :=
  do r <- testReturn H ret (f_ret f);
  do a <- testArguments H args (f_args f);
  Ok (combine r a).

(* src/function.cpp 91-98: Function::test(other) *)
Definition test_fn (H : heap) (f other : fn) : outcome grade :=
  do r <- testReturn H (f_ret other) (f_ret f);
  do a <- testArguments H (f_args other) (f_args f);
  Ok (combine r a).

(* src/overloads.cpp 16-29: Overloads::add *)
Fixpoint add_check (H : heap) (f : fn) (os : overloads) : outcome unit :=
  match os with
  | [] => Ok tt
  | o :: os' =>
    do m <- test_fn H f o;
    if negb (grade_eqb m MExact) then add_check H f os' else Abort
  end.
Definition overloads_add (H : heap) (os : overloads) (f : fn) : outcome overloads :=
  do _ <- add_check H f os; Ok (os ++ [f]).

(* src/overloads.cpp 41-49: Overloads::test(ret, args) *)
Fixpoint overloads_test (H : heap) (os : overloads) (ret : argument) (args : list argument) : outcome bool :=
  match os with
  | [] => Ok false
  | f :: os' =>
    do m <- test_sig H f ret args;
    if negb (grade_eqb m MNone) then Ok true else overloads_test H os' ret args
  end.

(* src/overloads.cpp 31-39: Overloads::test(const Function&) - note that the
   argument is tested against each overload's signature, not the converse *)
Fixpoint overloads_test_fn (H : heap) (os : overloads) (f : fn) : outcome bool :=
  match os with
  | [] => Ok false
  | o :: os' =>
    do m <- test_fn H f o;
    if negb (grade_eqb m MNone) then Ok true else overloads_test_fn H os' f
  end.

(* src/overloads.cpp 51-61: Overloads::get(ret, args) *)
Fixpoint overloads_get (H : heap) (os : overloads) (ret : argument) (args : list argument) : outcome fn :=
  match os with
  | [] => Abort
  | f :: os' =>
    do m <- test_sig H f ret args;
    if negb (grade_eqb m MNone) then Ok f else overloads_get H os' ret args
  end.

(* src/overloads.tcc 50-66: the scan of Overloads::call, state (bestFn, ambiguous) *)
Fixpoint resolve_loop (H : heap) (os : overloads) (ret : argument) (args : list argument)
         (best : option fn) (ambiguous : bool) : outcome (option fn * bool) :=
  match os with
  | [] => Ok (best, ambiguous)
  | f :: os' =>
    do m <- test_sig H f ret args;
    if grade_eqb m MNone then resolve_loop H os' ret args best ambiguous else
    if (match best with Some _ => true | None => false end) && grade_eqb m MPartial
    then resolve_loop H os' ret args best true else
    if grade_eqb m MExact then Ok (Some f, false)
    else resolve_loop H os' ret args (Some f) ambiguous
  end.

(* Result of the resolution part of Overloads::call (src/overloads.tcc 42-84);
   both errors are reflectError (abort). *)
Inductive resolution := Chosen (f : fn) | NoOverload | Ambiguous.

Definition overloads_resolve (H : heap) (os : overloads) (ret : argument) (args : list argument)
  : outcome resolution :=
  do (best, ambiguous) <- resolve_loop H os ret args None false;
  match best with
  | None => Ok NoOverload
  | Some f => if ambiguous then Ok Ambiguous else Ok (Chosen f)
  end.

(* src/type.cpp 66-76 and 78-88: isCopiable, isMovable *)
Definition isCopiable (H : heap) (this : tptr) : outcome bool :=
  match tget H this with
  | None => UB
  | Some t =>
    do has <- hasFunction H this (t_id t);
    if negb has then Ok false else
    do fns <- function H this (t_id t);
    overloads_test H fns (Arg this Copy false) [Arg this Copy false]
  end.

Definition isMovable (H : heap) (this : tptr) : outcome bool :=
  match tget H this with
  | None => UB
  | Some t =>
    do has <- hasFunction H this (t_id t);
    if negb has then Ok false else
    do fns <- function H this (t_id t);
    overloads_test H fns (Arg this Copy false) [Arg this RValue false]
  end.

(* ---- updates of a type record ---- *)

Definition set_fns (t : typerec) fns := Type_ (t_id t) (t_parent t) (t_traits t) (t_pointer t) (t_pointee t) (t_fields t) fns.
Definition set_fields (t : typerec) fs := Type_ (t_id t) (t_parent t) (t_traits t) (t_pointer t) (t_pointee t) fs (t_fns t).

(* src/type.cpp 90-101: Type::addFunction.  H is the heap the signature checks
   run in (it contains the type itself). *)
Definition addFunction (H : heap) (t : typerec) (name : str) (f : fn) : outcome typerec :=
  match afind name (t_fields t) with
  | Some _ => Abort
  | None =>
    do os <- overloads_add H (match afind name (t_fns t) with Some os => os | None => [] end) f;
    Ok (set_fns t (aset name os (t_fns t)))
  end.

(* src/field.cpp 16-24: Field::Field *)
Definition makeField (name : str) (arg : argument) (offset : N) : outcome field :=
  if negb (ref_eqb (a_ref arg) Copy) then Abort else Ok (Field name arg offset []).

(* src/type.cpp 160-175: Type::addField *)
Definition addField (t : typerec) (name : str) (f : field) : outcome typerec :=
  match afind name (t_fns t) with
  | Some _ => Abort
  | None =>
    match afind name (t_fields t) with
    | Some _ => Abort
    | None => Ok (set_fields t (t_fields t ++ [(name, f)]))
    end
  end.

(* src/traits.cpp 16-24: Traits::addTrait (trait names only) *)
Definition addTrait (traits : list str) (trait : str) : outcome (list str) :=
  if smem trait traits then Abort else Ok (traits ++ [trait]).

(* src/type.cpp 257-266: Type::setPointer *)
Definition setPointer (t : typerec) (kind : str) (pointee : option tptr) : outcome typerec :=
  if isPointer t then Abort else
  do tr <- addTrait (t_traits t) (lit "pointer");
  Ok (Type_ (t_id t) (t_parent t) tr kind pointee (t_fields t) (t_fns t)).

(* src/type.h 28: parent setter, unchecked *)
Definition setParent (t : typerec) (p : option tptr) : typerec :=
  Type_ (t_id t) p (t_traits t) (t_pointer t) (t_pointee t) (t_fields t) (t_fns t).

(* src/function.cpp 115-137, src/argument.cpp 135-148: printed signatures *)
Definition print_arg (H : heap) (a : argument) : outcome str :=
  match tget H (a_type a) with
  | None => UB
  | Some t => Ok (t_id t ++ (if a_const a then lit " const" else [])
                   ++ match a_ref a with LValue => lit "&" | RValue => lit "&&" | Copy => [] end)
  end.

Fixpoint print_args (H : heap) (first : bool) (l : list argument) : outcome str :=
  match l with
  | [] => Ok []
  | a :: l' =>
    do s <- print_arg H a;
    do r <- print_args H false l';
    Ok ((if first then [] else lit ", ") ++ s ++ r)
  end.

Definition signature (H : heap) (ret : argument) (args : list argument) : outcome str :=
  do r <- print_arg H ret;
  do a <- print_args H true args;
  Ok (r ++ lit "(" ++ a ++ lit ")").
