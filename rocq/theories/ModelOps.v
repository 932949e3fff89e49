(* ModelOps.v - calls that ask for a C++ result, and the operators of Value, on the
   object memory of ModelCont.  Models Type::call<Ret> and Value::call<Ret>
   (src/type.tcc 41-47, src/value.tcc 110-117, src/overloads.tcc 42-85,
   src/function.tcc 142-170, src/cast.h 122-185) with Value arguments, and
   src/value.h 42-68, 124-167, src/value.cpp 126-142.  Simplification: the Value
   that the callable's result is wrapped in, which goes at the end of the call, is
   not reclaimed. *)
From Coq Require String.
Import String.StringSyntax.
From Verif Require Import Base ModelCore ModelValue ModelCont ModelPtr.
Local Open Scope outcome_scope.

(* function.tcc 142-168: up to the Value around the result, ret being Ret *)
Definition mcall_for (B : body) (n : nat) (E : cpp) (H : heap) (m : mem) (st : state)
           (T : tptr) (name : str) (ret : argument) (vs : list value) : outcome (value * mem * state) :=
  do os <- function H T name;
  do r <- overloads_resolve H os ret (map v_arg vs);
  match r with
  | Chosen f =>
    do g <- test_sig H f ret (map v_arg vs);
    if grade_eqb g MNone then Abort else
    do (qs, st1) <- pass_all n E H st vs (f_args f);
    do m1 <- run_ctors m (st_next st) (skipn (length (st_log st)) (st_log st1));
    do (r2, res) <- B (f_code f) qs m1 (st_next st1);
    let '(m2, next2) := r2 in
    do (w, st2) <- wrap_ret (with_ref E res) H f qs (St next2 (st_log st1));
    Ok (w, match res with RNew d => mset m2 next2 d | _ => m2 end, st2)
  | _ => Abort
  end.

(* function.tcc 169, cast.h 122-185: retCast<Ret>(result), with the constructor it runs *)
Definition mret_cast (n : nat) (E : cpp) (H : heap) (m : mem) (st : state) (w : value) (ret : argument)
  : outcome (option param * mem * state) :=
  do (r, st1) <- ret_cast n E H st w ret;
  do m1 <- run_ctors m (st_next st) (skipn (length (st_log st)) (st_log st1));
  Ok (r, m1, st1).

(* Type::call<Ret>(name, args...) for a Ret other than Value *)
Definition mtype_call_ret (B : body) (n : nat) (E : cpp) (H : heap) (m : mem) (st : state)
           (T : tptr) (name : str) (ret : argument) (vs : list value) : outcome (option param * mem * state) :=
  do (x, st1) <- mcall_for B n E H m st T name ret vs;
  let '(w, m1) := x in mret_cast n E H m1 st1 w ret.
(* value.tcc 110-117: Value::call<Ret>(name, args...) *)
Definition mvalue_call_ret (B : body) (n : nat) (E : cpp) (H : heap) (m : mem) (st : state)
           (v : value) (name : str) (ret : argument) (vs : list value) : outcome (option param * mem * state) :=
  mtype_call_ret B n E H m st (v_type v) name ret (v :: vs).

(* call<bool>(name, args...); tb is type<bool>() *)
Definition mcall_bool (B : body) (n : nat) (E : cpp) (H : heap) (m : mem) (st : state) (tb : tptr)
           (v : value) (name : str) (vs : list value) : outcome (bool * mem * state) :=
  do (x, st1) <- mvalue_call_ret B n E H m st v name (Arg tb Copy false) vs;
  let '(r, m1) := x in
  match r with
  | Some (PCopy a) => do p <- get m1 a; Ok (negb (N.eqb p 0), m1, st1)
  | _ => UB
  end.

(* value.cpp 137-142: Value::operator bool() *)
Definition value_truth (B : body) (n : nat) (E : cpp) (H : heap) (m : mem) (st : state) (tb : tptr) (v : value)
  : outcome (bool * mem * state) := mcall_bool B n E H m st tb v (lit "operator bool()") [].
(* value.cpp 126-135: Value::operator!() *)
Definition value_not (B : body) (n : nat) (E : cpp) (H : heap) (m : mem) (st : state) (tb : tptr) (v : value)
  : outcome (bool * mem * state) :=
  do has <- hasFunction H (v_type v) (lit "operator!");
  if has then mcall_bool B n E H m st tb v (lit "operator!") [] else
  do (x, st1) <- value_truth B n E H m st tb v;
  let '(b, m1) := x in Ok (negb b, m1, st1).
(* value.h 57-62 reflectValueOpBool, and the names it is used with (153-161) *)
Inductive boolop := VAnd | VOr | VEq | VNe | VLt | VGt | VLe | VGe.
Definition boolop_name (o : boolop) : str :=
  match o with
  | VAnd => lit "operator&&" | VOr => lit "operator||" | VEq => lit "operator==" | VNe => lit "operator!="
  | VLt => lit "operator<" | VGt => lit "operator>" | VLe => lit "operator<=" | VGe => lit "operator>="
  end.
Definition value_bool_op (B : body) (n : nat) (E : cpp) (H : heap) (m : mem) (st : state) (tb : tptr)
           (o : boolop) (v x : value) : outcome (bool * mem * state) :=
  mcall_bool B n E H m st tb v (boolop_name o) [x].
(* value.h 44-55, 64-68 reflectValueOpUnary, Binary and Nary: call<Value>(name, args...) *)
Definition value_op (B : body) (n : nat) (E : cpp) (H : heap) (m : mem) (st : state) (name : str)
           (v : value) (vs : list value) : outcome (value * mem * state) :=
  mtype_call B n E H m st (v_type v) name (v :: vs).
