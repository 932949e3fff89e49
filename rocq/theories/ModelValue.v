(* ModelValue.v - Value handles, casts and reflected calls.
   Models src/value.{h,tcc,cpp}, src/cast.{h,cpp}, Function::call
   (src/function.tcc 142-170), ValueFunctionImpl (src/value_function.h 77-133)
   and Type::construct (src/type.tcc 33-47). *)
From Coq Require String.
Import String.StringSyntax.
From Verif Require Import Base ModelCore.
Local Open Scope outcome_scope.

(* A void*: (object identity, byte offset inside it).  Object 0 is null.  The
   library converts derived to base with static_cast from void* (value.tcc 93,
   106), which keeps the address: so does the model. *)
Definition addr := (nat * N)%type.
Definition null_addr : addr := (0, 0%N).

(* src/value.h 171-173: arg, value_, storage.  Of the shared_ptr only its
   presence (isStored, value.h 96) is modelled, not the lifetime of the object. *)
Record value := Val { v_arg : argument; v_addr : addr; v_stored : bool }.
Definition v_type (v : value) : tptr := a_type (v_arg v).

(* src/value.cpp 17-18: Value().  Argument() leaves refType_ uninitialised
   (src/argument.cpp 43-44); Copy is written here, nothing below depends on it. *)
Definition void_value (H : heap) : value := Val (Arg (h_void H) Copy false) null_addr false.

(* How a C++ parameter is initialised from the Value that carries the argument:
   PRef: bound by reference to the object at that address (cast.h 76-80);
   PMove: a temporary move-constructed from it (cast.h 82-91: the target type of
   a T&& cast is T, so a T&& parameter binds to a moved-to temporary);
   PCopy: copy-constructed from it (cast.h 93-99);
   PVal: the Value handle itself (cast.h 122-130). *)
Inductive param := PRef (a : addr) | PMove (a : addr) | PCopy (a : addr) | PVal (v : value).

(* What the C++ compiler knows of the types and callables, which the library
   consults through std::is_copy_constructible, std::is_move_constructible and
   by running the callables. *)
Record cpp := Cpp {
  cpp_copyable : tptr -> bool;
  cpp_movable : tptr -> bool;
  cpp_ref_result : nat -> list param -> addr;     (* T& returning callables *)
  cpp_val_result : nat -> list param -> value }.  (* Value returning callables *)

(* Next fresh object, and the callables invoked so far with their parameters. *)
Record state := St { st_next : nat; st_log : list (nat * list param) }.

(* src/value.tcc 17-61 and 63-81: store() *)
Definition storable (E : cpp) (T : tptr) (isConst : bool) : bool :=
  (negb isConst && cpp_movable E T) || cpp_copyable E T.

(* src/value.tcc 63-81: Value(T&&) of an object with reflected argument arg at a *)
Definition make_value (E : cpp) (st : state) (arg : argument) (a : addr) : outcome (value * state) :=
  if negb (ref_eqb (a_ref arg) RValue) then Ok (Val arg a false, st) else
  if storable E (a_type arg) (a_const arg)
  then Ok (Val (Arg (a_type arg) LValue false) (st_next st, 0%N) true, St (S (st_next st)) (st_log st))
  else Abort.

(* An argument at a call site: a Value, or a C++ object of reflected argument
   arg at an address (src/function.tcc 72-103, reflectArguments). *)
Inductive carg := CVal (v : value) | CRaw (arg : argument) (a : addr).
Definition carg_arg (c : carg) : argument := match c with CVal v => v_arg v | CRaw arg _ => arg end.

(* src/cast.h 110-130: cast<Value>(arg) *)
Definition to_value (E : cpp) (st : state) (c : carg) : outcome (value * state) :=
  match c with
  | CVal v => Ok (v, st)
  | CRaw arg a => make_value E st arg a
  end.

(* src/value.tcc 83-107: as<T>(), get<T>(): type check only, const-ness and
   value category of the handle are not consulted. *)
Definition value_as (H : heap) (v : value) (T : tptr) : outcome addr :=
  do c <- isChildOf H (v_type v) T;
  if c then Ok (v_addr v) else Abort.

(* src/cast.cpp 16-35: lref *)
Definition lref (H : heap) (v : value) (t : argument) : outcome value :=
  do p <- isParentOf H (a_type t) (v_type v);
  if p then
    (if a_const t then Ok v
     else if negb (a_const (v_arg v)) && ref_eqb (a_ref (v_arg v)) LValue then Ok v
     else Abort)
  else Abort.

(* src/cast.h 69-108: Cast<Value, Target>::ret on the result of reflect::cast *)
Definition cast_ret (E : cpp) (H : heap) (t : argument) (v : value) : outcome param :=
  if ref_eqb (a_ref t) LValue then
    do a <- value_as H v (a_type t); Ok (PRef a)
  else if ref_eqb (a_ref t) RValue && cpp_movable E (a_type t) then
    do a <- value_as H v (a_type t); Ok (PMove a)
  else if cpp_copyable E (a_type t) then
    do a <- value_as H v (a_type t); Ok (PCopy a)
  else Abort.

(* src/value_function.h 77-102: what comes back from the callable, as a Value.
   void: Value(); Value: the handle; T&: a reference to what the callable
   designates; T or T&&: an rvalue, hence stored. *)
Definition wrap_ret (E : cpp) (H : heap) (f : fn) (ps : list param) (st : state) : outcome (value * state) :=
  let st1 := St (st_next st) (st_log st ++ [(f_code f, ps)]) in
  let r := f_ret f in
  if Nat.eqb (a_type r) (h_void H) then Ok (void_value H, st1)
  else if Nat.eqb (a_type r) (h_value H) then Ok (cpp_val_result E (f_code f) ps, st1)
  else if ref_eqb (a_ref r) LValue then Ok (Val r (cpp_ref_result E (f_code f) ps) false, st1)
  else make_value E st1 (Arg (a_type r) RValue (a_const r)) null_addr.

(* The reflected argument of a `Value` return requested by the caller *)
Definition ret_value (H : heap) : argument := Arg (h_value H) Copy false.

(* src/cast.cpp 37-94 rref, copy, cast; with, for the calls they make on a single
   Value argument, Function::call<Value> (src/function.tcc 155-170),
   Overloads::call<Value> (src/overloads.tcc 42-85), Type::construct
   (src/type.tcc 33-47) and Value::convert<Value> (src/value.tcc 143-149).
   The fuel bounds the nesting of constructor / converter calls. *)
Fixpoint cast_f (n : nat) (E : cpp) (H : heap) (st : state) (v : value) (t : argument)
  : outcome (value * state) :=
  match n with
  | O => OutOfFuel
  | S n' =>
    (* Cast<Value,Target>::cast (cast.h 62-66) / Cast<Value,Value>::cast (122-130) *)
    let pass st v p :=
      if Nat.eqb (a_type p) (h_value H) && ref_eqb (a_ref p) Copy then Ok (PVal v, st) else
      do (w, st1) <- cast_f n' E H st v p;
      do q <- cast_ret E H p w;
      Ok (q, st1) in
    (* Function::call<Value>(v) *)
    let call1 f :=
      do g <- test_sig H f (ret_value H) [v_arg v];
      if grade_eqb g MNone then Abort else
      match f_args f with
      | [p] => do (q, st1) <- pass st v p; wrap_ret E H f [q] st1
      | _ => UB
      end in
    (* target.type()->construct(v) *)
    let construct T :=
      match tget H T with
      | None => UB
      | Some ty =>
        do fns <- function H T (t_id ty);
        do r <- overloads_resolve H fns (ret_value H) [v_arg v];
        match r with Chosen f => call1 f | _ => Abort end
      end in
    (* v.convert<Value>(target.type()) *)
    let convert T := do f <- converter H (v_type v) T; call1 f in
    match a_ref t with
    | LValue => do w <- lref H v t; Ok (w, st)
    | RValue =>
      do m <- isMovable H (a_type t);
      if negb m then Abort else
      do c <- isChildOf H (v_type v) (a_type t);
      if c then Ok (v, st) else
      do k <- hasConverter H (v_type v) (a_type t);
      if k then convert (a_type t) else Abort
    | Copy =>
      do m <- isCopiable H (a_type t);
      if negb m then Abort else
      do c <- isChildOf H (v_type v) (a_type t);
      if c then construct (a_type t) else
      do k <- hasConverter H (v_type v) (a_type t);
      if k then convert (a_type t) else Abort
    end
  end.

(* src/cast.h 52-66 and 122-130: cast<Param>(Value&) *)
Definition pass (n : nat) (E : cpp) (H : heap) (st : state) (v : value) (p : argument)
  : outcome (param * state) :=
  if Nat.eqb (a_type p) (h_value H) && ref_eqb (a_ref p) Copy then Ok (PVal v, st) else
  do (w, st1) <- cast_f n E H st v p;
  do q <- cast_ret E H p w;
  Ok (q, st1).

(* src/function.tcc 168: cast<Value>(args)... (the order of evaluation, which
   C++ leaves open, is left to right here) *)
Fixpoint to_values (E : cpp) (st : state) (cs : list carg) : outcome (list value * state) :=
  match cs with
  | [] => Ok ([], st)
  | c :: cs' =>
    do (v, st1) <- to_value E st c;
    do (vs, st2) <- to_values E st1 cs';
    Ok (v :: vs, st2)
  end.

(* src/value_function.h 105-131: cast<Args>(values)... (left to right here) *)
Fixpoint pass_all (n : nat) (E : cpp) (H : heap) (st : state) (vs : list value) (ps : list argument)
  : outcome (list param * state) :=
  match vs, ps with
  | [], [] => Ok ([], st)
  | v :: vs', p :: ps' =>
    do (q, st1) <- pass n E H st v p;
    do (qs, st2) <- pass_all n E H st1 vs' ps';
    Ok (q :: qs, st2)
  | _, _ => UB    (* the static_cast of function.tcc 166 to the wrong arity *)
  end.

(* src/function.tcc 142-168: Function::call<Ret>(args...) up to the Value the
   callable gives back: the signature test, the marshalling of the arguments, the
   callable, its wrapped result. *)
Definition call_fn (n : nat) (E : cpp) (H : heap) (st : state) (f : fn) (ret : argument) (cs : list carg)
  : outcome (value * state) :=
  do g <- test_sig H f ret (map carg_arg cs);
  if grade_eqb g MNone then Abort else
  do (vs, st1) <- to_values E st cs;
  do (qs, st2) <- pass_all n E H st1 vs (f_args f);
  wrap_ret E H f qs st2.

(* src/function.tcc 169 and src/cast.h 172-185: retCast<Ret>(ret).  None: void. *)
Definition ret_cast (n : nat) (E : cpp) (H : heap) (st : state) (r : value) (ret : argument)
  : outcome (option param * state) :=
  if Nat.eqb (a_type ret) (h_void H) then Ok (None, st) else
  do (q, st1) <- pass n E H st r ret; Ok (Some q, st1).

(* src/function.tcc 155-170: Function::call<Ret>(args...) *)
Definition call_ret (n : nat) (E : cpp) (H : heap) (st : state) (f : fn) (ret : argument) (cs : list carg)
  : outcome (option param * state) :=
  do (r, st1) <- call_fn n E H st f ret cs;
  ret_cast n E H st1 r ret.

(* Function::call<Value>(args...): retCast<Value> is the identity (cast.h 122-130) *)
Definition call_value (n : nat) (E : cpp) (H : heap) (st : state) (f : fn) (cs : list carg)
  : outcome (value * state) := call_fn n E H st f (ret_value H) cs.

(* src/overloads.tcc 42-85: Overloads::call<Value>(args...) *)
Definition overloads_call (n : nat) (E : cpp) (H : heap) (st : state) (os : overloads) (cs : list carg)
  : outcome (value * state) :=
  do r <- overloads_resolve H os (ret_value H) (map carg_arg cs);
  match r with Chosen f => call_value n E H st f cs | _ => Abort end.

(* src/type.tcc 33-47: Type::call<Value>(name, args...) and Type::construct *)
Definition type_call (n : nat) (E : cpp) (H : heap) (st : state) (T : tptr) (name : str) (cs : list carg)
  : outcome (value * state) :=
  do os <- function H T name; overloads_call n E H st os cs.
Definition construct (n : nat) (E : cpp) (H : heap) (st : state) (T : tptr) (cs : list carg)
  : outcome (value * state) :=
  match tget H T with
  | None => UB
  | Some t => type_call n E H st T (t_id t) cs
  end.

(* src/value.tcc 110-117: Value::call<Value>(fn, args...) *)
Definition value_call (n : nat) (E : cpp) (H : heap) (st : state) (v : value) (name : str) (cs : list carg)
  : outcome (value * state) :=
  type_call n E H st (v_type v) name (CVal v :: cs).

(* src/value.cpp 24-69: copying or assigning a handle *)
Definition handle_copy (v : value) : value := v.

(* src/value.cpp 108-115, 117-124 *)
Definition toConst (v : value) : value := Val (Arg (v_type v) RValue true) (v_addr v) (v_stored v).
Definition rvalue (v : value) : value := Val (Arg (v_type v) RValue (a_const (v_arg v))) (v_addr v) (v_stored v).

(* src/value.tcc 119-132: Value::field<Value>(name) *)
Definition value_field (H : heap) (v : value) (name : str) : outcome value :=
  do f <- field_ H (v_type v) name;
  Ok (Val (Arg (a_type (fd_arg f)) LValue (a_const (fd_arg f) || a_const (v_arg v)))
          (fst (v_addr v), (snd (v_addr v) + fd_offset f)%N) false).

(* src/value.cpp 86-94: copy() *)
Definition value_copy (n : nat) (E : cpp) (H : heap) (st : state) (v : value) : outcome (value * state) :=
  do c <- isCopiable H (v_type v);
  if negb c then Abort else construct n E H st (v_type v) [CVal v].

(* src/value.cpp 96-106: move().  The second component of the result is *this
   afterwards: reset before the construction, which may fail. *)
Definition value_move (n : nat) (E : cpp) (H : heap) (st : state) (v : value)
  : outcome (value * state) * value :=
  match isMovable H (v_type v) with
  | Ok true => (construct n E H st (v_type v) [CVal (rvalue v)], void_value H)
  | Ok false => (Abort, v)
  | Abort => (Abort, v) | Throw => (Throw, v) | UB => (UB, v) | OutOfFuel => (OutOfFuel, v)
  end.

(* src/cast.cpp 81-84: isCastable *)
Definition isCastable (H : heap) (v : value) (t : argument) : outcome bool :=
  do g <- isConvertibleTo H (v_arg v) t; Ok (negb (grade_eqb g MNone)).
