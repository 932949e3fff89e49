(* ModelSig.v - from C++ types and functions to Arguments and signatures.
   Models src/ref_type.h, src/argument.tcc, src/function_type.h, src/function.tcc
   20-63 and 71-104 (reflectReturn, reflectArguments), src/field.tcc.
   name gives the id of a named type, obj the type object registered for an id
   (one per id: C17). *)
From Coq Require String. Import String.StringSyntax.
From Verif Require Import Base ModelCore ModelClean.
Local Open Scope outcome_scope.

(* std::remove_reference *)
Definition bare (t : cpp) : cpp := match t with CLRef u | CRRef u => u | _ => t end.
(* std::is_const: a const array is an array of const elements *)
Fixpoint is_const (t : cpp) : bool := match t with CConst _ => true | CArr e => is_const e | _ => false end.

(* src/ref_type.h 32-38: makeRefType<T>() *)
Definition makeRefType (t : cpp) : reftype := match t with CRRef _ => RValue | CLRef _ => LValue | _ => Copy end.
(* src/ref_type.h 40-45: makeRefType(T&&), T deduced *)
Definition makeRefTypeOf (t : cpp) : reftype := match t with CLRef _ => LValue | _ => RValue end.
(* src/ref_type.h 52-64: isConst<T>(), isConst(T&&) *)
Definition isConst (t : cpp) : bool := is_const (bare t).

(* src/argument.tcc 17-26: Argument::make<T>() *)
Definition make (name : nat -> str) (obj : str -> tptr) (t : cpp) : outcome argument :=
  do r <- get_type name t; let '(id, _, _) := r in
  Ok (Arg (obj id) (makeRefType t) (isConst t)).

(* src/argument.tcc 28-37: Argument::make(T&& value) on an expression of type X:
   T is deduced as X& for an lvalue and as X otherwise *)
Definition deduced (lvalue : bool) (X : cpp) : cpp := if lvalue then CLRef X else X.
Definition make_expr (name : nat -> str) (obj : str -> tptr) (lvalue : bool) (X : cpp) : outcome argument :=
  let t := deduced lvalue X in
  do r <- get_type name t; let '(id, _, _) := r in
  Ok (Arg (obj id) (makeRefTypeOf t) (isConst t)).

(* what &f can be; the bool tells a const member function / const operator() *)
Inductive fn_kind :=
| KCall (ret : cpp) (args : list cpp)
| KGlobal (ret : cpp) (args : list cpp)
| KMember (o : cpp) (c : bool) (ret : cpp) (args : list cpp)
| KFunctor (c : bool) (ret : cpp) (args : list cpp).

(* src/function_type.h 29-124: Return and Arguments *)
Definition fReturn (k : fn_kind) : cpp :=
  match k with KCall r _ | KGlobal r _ | KMember _ _ r _ | KFunctor _ r _ => r end.
Definition fArguments (k : fn_kind) : list cpp :=
  match k with
  | KCall _ a | KGlobal _ a | KFunctor _ _ a => a
  | KMember o c _ a => CLRef (if c then CConst o else o) :: a
  end.

(* src/function.tcc 46-63: reflectArguments<Fn>() *)
Fixpoint reflectArguments (name : nat -> str) (obj : str -> tptr) (ts : list cpp) : outcome (list argument) :=
  match ts with
  | [] => Ok []
  | t :: ts' => do a <- make name obj t; do r <- reflectArguments name obj ts'; Ok (a :: r)
  end.
(* src/function.tcc 109-116: Function::Function(name, fn) *)
Definition makeFunction (name : nat -> str) (obj : str -> tptr) (n : str) (k : fn_kind) (code : nat) : outcome fn :=
  do r <- make name obj (fReturn k);
  do a <- reflectArguments name obj (fArguments k);
  Ok (Fn n r a code).

(* src/function.tcc 71-104: reflectArguments(args...) of raw C++ expressions *)
Fixpoint reflectExprs (name : nat -> str) (obj : str -> tptr) (es : list (bool * cpp)) : outcome (list argument) :=
  match es with
  | [] => Ok []
  | (lv, X) :: es' => do a <- make_expr name obj lv X; do r <- reflectExprs name obj es'; Ok (a :: r)
  end.

(* src/field.tcc 17-22 and src/dsl/field.h 32-33: Field::make<T>(name, offset) *)
Definition field_make (name : nat -> str) (obj : str -> tptr) (n : str) (t : cpp) (offset : N) : outcome field :=
  do a <- make name obj t; makeField n a offset.
