(* ModelTraits.v - Traits with their values (src/traits.{h,cpp,tcc}).
   The traits of a Type, Field, Function or Overloads object are one Traits base
   object; V stands for the stored reflect::Value (opaque here). *)
From Coq Require String.
Import String.StringSyntax.
From Verif Require Import Base ModelCore.

Section Traits.
Context {V : Type}.

(* src/traits.h 33: unordered_map<string, Value> *)
Definition traits := list (str * V).

(* src/traits.cpp 16-24 *)
Definition Traits_addTrait (T : traits) (trait : str) (value : V) : outcome traits :=
  if ahas trait T then Abort else Ok (aset trait value T).

(* src/traits.cpp 39-44 *)
Definition Traits_is (T : traits) (trait : str) : bool := ahas trait T.

(* src/traits.cpp 26-37: in map iteration order *)
Definition Traits_traits (T : traits) : list str := akeys T.

(* src/traits.tcc 26-35; the final retCast<Ret> is not modelled *)
Definition Traits_getValue (T : traits) (trait : str) : outcome V :=
  match afind trait T with Some v => Ok v | None => Abort end.

(* One call, a rejected one leaving the object untouched (with exceptions
   enabled the caller may continue). *)
Definition Traits_apply (T : traits) (op : str * V) : traits :=
  match Traits_addTrait T (fst op) (snd op) with Ok T' => T' | _ => T end.
End Traits.
Arguments traits : clear implicits.

(* Calls that declare members of one type; each addFunction runs its checks in
   the heap current at that time.  A rejected call leaves the type untouched. *)
Inductive member_op := OpField (n : str) (f : field) | OpFunction (H : heap) (n : str) (f : fn).

(* src/type.cpp 90-101 and 160-175 *)
Definition member_call (t : typerec) (op : member_op) : outcome typerec :=
  match op with
  | OpField n f => addField t n f
  | OpFunction H n f => addFunction H t n f
  end.
Definition member_apply (t : typerec) (op : member_op) : typerec :=
  match member_call t op with Ok t' => t' | _ => t end.
