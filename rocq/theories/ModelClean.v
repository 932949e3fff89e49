(* ModelClean.v - src/clean_type.h, src/registry.h (typeId, get<T>, add<T>),
   src/types/pointer.h, src/dsl/template.h: from C++ types to type ids *)
From Coq Require String. Import String.StringSyntax.
From Verif Require Import Base.
Local Open Scope outcome_scope.

(* C++ types as seen by type<T>(): named object types, const, pointers, lvalue and
   rvalue references, arrays and functions.  volatile, member pointers and array
   lengths are left out. *)
Inductive cpp :=
| CBase (n : nat)
| CConst (t : cpp)
| CPtr (t : cpp)
| CLRef (t : cpp)
| CRRef (t : cpp)
| CArr (t : cpp)
| CFun (n : nat).

(* the types a C++ program can write: const only on named types and pointers (const
   of an array is an array of const), references only outermost *)
Fixpoint obj_type (t : cpp) : bool :=
  match t with
  | CBase _ => true
  | CConst (CBase _) => true
  | CConst (CPtr t') => obj_type t'
  | CConst _ => false
  | CPtr t' => obj_type t'
  | CArr t' => obj_type t'
  | CLRef _ | CRRef _ => false
  | CFun _ => true
  end.
Definition cpp_type (t : cpp) : bool := match t with CLRef t' | CRRef t' => obj_type t' | _ => obj_type t end.
Fixpoint no_fun (t : cpp) : bool :=
  match t with CBase _ => true | CFun _ => false | CConst t' | CPtr t' | CLRef t' | CRRef t' | CArr t' => no_fun t' end.

(* std::decay *)
Definition decay (t : cpp) : cpp :=
  let u := match t with CLRef t' | CRRef t' => t' | _ => t end in
  match u with
  | CArr e => CPtr e
  | CFun n => CPtr (CFun n)
  | CConst v => v
  | _ => u
  end.

(* src/clean_type.h 17-28: the primary template, and the specialisation for T*
   (which T* const and T*& do not match).  OutOfFuel: the template instantiation
   does not terminate. *)
Fixpoint clean_f (fuel : nat) (t : cpp) : outcome cpp :=
  match fuel with
  | O => OutOfFuel
  | Datatypes.S fuel' =>
    match t with
    | CPtr u => do v <- clean_f fuel' (decay u); Ok (CPtr v)
    | _ => Ok (decay t)
    end
  end.
Fixpoint csize (t : cpp) : nat :=
  match t with CBase _ | CFun _ => 1 | CConst t' | CPtr t' | CLRef t' | CRRef t' | CArr t' => Datatypes.S (csize t') end.
Definition clean (t : cpp) : outcome cpp := clean_f (Datatypes.S (csize t)) t.

(* Reflect<T>::id(): for a named type the registered name (the id of the nth named
   type is given by name); for T* types/pointer.h 27.  No specialisation for other
   types: ill-formed, here Abort.
   typeId<T>() = Reflect<CleanType<T>>::id(), src/registry.h 78-83. *)
Fixpoint reflect_id (name : nat -> str) (fuel : nat) (t : cpp) : outcome str :=
  match fuel with
  | O => OutOfFuel
  | Datatypes.S fuel' =>
    match t with
    | CBase n => Ok (name n)
    | CPtr u => do v <- clean u; do s <- reflect_id name fuel' v; Ok (s ++ lit "*")
    | _ => Abort
    end
  end.
Definition typeId (name : nat -> str) (t : cpp) : outcome str := do c <- clean t; reflect_id name (Datatypes.S (csize t)) c.

(* Registry::get<T>() (src/registry.h 29-36): runs the loader hook of
   Reflect<CleanT>, which registers (dsl/template.h 18-25 -> Registry::add<T_>,
   registry.h 40-47) the reflect() function of Reflect<CleanType<T_>> under that
   specialisation's id; then looks up Reflect<CleanT>::id().
   Result: the id looked up, the id registered and the specialisation that builds
   the type. *)
Definition get_type (name : nat -> str) (t : cpp) : outcome (str * str * cpp) :=
  do c <- clean t;
  do look <- reflect_id name (Datatypes.S (csize t)) c;
  do c2 <- clean c;
  do reg <- reflect_id name (Datatypes.S (csize t)) c2;
  Ok (look, reg, c2).
