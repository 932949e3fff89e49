(* ModelCall.v - calls by name with a requested result type.
   Models Overloads::call<Ret> (src/overloads.tcc 42-85), Type::call<Ret>
   (src/type.tcc 41-47), Value::call<Ret> (src/value.tcc 110-117), Value::assign
   (src/value.tcc 134-140), Value::field<Ret> (src/value.tcc 119-132) and
   Value::convert<Ret> (src/value.tcc 143-149) for a Ret other than Value; the
   Ret = Value instances are in ModelValue. *)
From Coq Require String.
Import String.StringSyntax.
From Verif Require Import Base ModelCore ModelValue.
Local Open Scope outcome_scope.

(* src/overloads.tcc 42-85: Overloads::call<Ret>(args...): the scan, the two
   errors, then bestFn->call<Ret>.  None: Ret is void. *)
Definition overloads_call_ret (n : nat) (E : cpp) (H : heap) (st : state) (os : overloads) (ret : argument)
  (cs : list carg) : outcome (option param * state) :=
  do r <- overloads_resolve H os ret (map carg_arg cs);
  match r with Chosen f => call_ret n E H st f ret cs | _ => Abort end.

(* src/type.tcc 41-47: Type::call<Ret>(name, args...) *)
Definition type_call_ret (n : nat) (E : cpp) (H : heap) (st : state) (T : tptr) (name : str) (ret : argument)
  (cs : list carg) : outcome (option param * state) :=
  do os <- function H T name; overloads_call_ret n E H st os ret cs.

(* src/value.tcc 110-117: Value::call<Ret>(name, args...): *this goes first *)
Definition value_call_ret (n : nat) (E : cpp) (H : heap) (st : state) (v : value) (name : str) (ret : argument)
  (cs : list carg) : outcome (option param * state) :=
  do os <- function H (v_type v) name; overloads_call_ret n E H st os ret (CVal v :: cs).

(* The reflected argument of a void Ret *)
Definition ret_void (H : heap) : argument := Arg (h_void H) Copy false.

(* src/value.tcc 134-140: Value::assign(arg) *)
Definition value_assign (n : nat) (E : cpp) (H : heap) (st : state) (v : value) (c : carg)
  : outcome (option param * state) :=
  value_call_ret n E H st v (lit "operator=") (ret_void H) [c].

(* src/value.tcc 119-132: Value::field<Ret>(name) *)
Definition value_field_ret (n : nat) (E : cpp) (H : heap) (st : state) (v : value) (name : str) (ret : argument)
  : outcome (option param * state) :=
  do w <- value_field H v name; ret_cast n E H st w ret.

(* src/value.tcc 143-149: Value::convert<Ret>(target) *)
Definition value_convert_ret (n : nat) (E : cpp) (H : heap) (st : state) (v : value) (T : tptr) (ret : argument)
  : outcome (option param * state) :=
  do f <- converter H (v_type v) T; call_ret n E H st f ret [CVal v].
