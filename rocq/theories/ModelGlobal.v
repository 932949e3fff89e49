(* ModelGlobal.v - reflected global functions and variables, and calls through a
   scope.  Models src/dsl/scope.h 57-92 (reflectGlobalFn, reflectGlobalVar) and
   src/scope.tcc 16-31 (Scope::addFunction, Scope::call), on the scopes of ModelScope
   and the object memory of ModelCont. *)
From Coq Require String.
Import String.StringSyntax.
From Verif Require Import Base ModelCore ModelScope ModelValue ModelCall ModelCont ModelPtr ModelOps.
Local Open Scope outcome_scope.

(* scope.tcc 16-22: addFunction(name, rawFn): the Function gets the last component of
   the name.  The callable is given by its signature and its code. *)
Definition add_raw (H : heap) (S : sheap) (this : sptr) (name : str) (ret : argument) (args : list argument) (code : nat)
  : outcome sheap :=
  do (c, _) <- tail name; saddFunction H S this name (Fn c ret args code).

(* dsl/scope.h 61-65 (and the macros 67-71): reflectGlobalFn: the scope it is written
   in, scope_, is not used *)
Definition reflectGlobalFn (H : heap) (S : sheap) (scope_ : sptr) (name : str) (ret : argument) (args : list argument) (code : nat)
  : outcome sheap := add_raw H S 0 name ret args code.

(* dsl/scope.h 78-92: reflectGlobalVar of a T pointer and of a const T pointer; the
   reader is a lambda that returns a copy of the variable, a T by value; code numbers the reader, S code the
   writer *)
Definition reflectGlobalVar (H : heap) (S : sheap) (scope_ : sptr) (name : str) (T : tptr) (is_const : bool) (code : nat)
  : outcome sheap :=
  do S1 <- add_raw H S 0 name (Arg T Copy false) [] code;                              (* 82, 90 *)
  if is_const then Ok S1
  else add_raw H S1 0 name (Arg (h_void H) Copy false) [Arg T LValue true] (Datatypes.S code).   (* 83 *)

(* what the lambdas do; var is the address of the variable.  Copying and assigning a T
   copies its value (a number, as in ModelCont). *)
Definition var_body (var : addr) (writer : bool) (qs : list param) (m : mem) (next : nat)
  : outcome (mem * nat * result) :=
  match writer, qs with
  | false, [] => do p <- get m var; Ok (m, next, RNew (DData p))                       (* returns the variable *)
  | true, [PRef o] => do p <- get m o; do _ <- get m var; Ok (write m var p, next, RVoid)   (* assigns it *)
  | _, _ => UB
  end.
(* a program whose variable number k is at vars k; its reader has code 2k, its writer
   2k+1; the other callables are numbered from 2 * length vars *)
Definition globals_body (vars : list addr) (rest : body) : body := fun code qs m next =>
  match nth_error vars (Nat.div2 code) with
  | Some var => var_body var (Nat.odd code) qs m next
  | None => rest code qs m next
  end.

(* overloads.tcc 42-85 on the object memory: the part of ModelPtr.mtype_call and
   ModelOps.mcall_for after the name is looked up (see ProofGlobal.type_call_is) *)
Definition moverloads_call (B : body) (n : nat) (E : cpp) (H : heap) (m : mem) (st : state)
           (os : overloads) (ret : argument) (vs : list value) : outcome (value * mem * state) :=
  do r <- overloads_resolve H os ret (map v_arg vs);
  match r with
  | Chosen f =>
    do g <- test_sig H f ret (map v_arg vs);
    if grade_eqb g MNone then Abort else
    do (qs, st1) <- pass_all n E H st vs (f_args f);
    do m1 <- run_ctors m (st_next st) (skipn (length (st_log st)) (st_log st1));
    do (r2, res) <- B (f_code f) qs m1 (st_next st1);
    let '(m2, next2) := r2 in
    do (w, st2) <- wrap_ret (with_ref E res) H f qs (St next2 (st_log st1));
    Ok (w, match res with RNew d => mset m2 next2 d | _ => m2 end, st2)
  | _ => Abort
  end.

(* scope.tcc 24-31: Scope::call<Value>(name, args...) with Value arguments.  Looking
   the function up may create scopes (the const function() casts const away). *)
Definition mscope_call (B : body) (n : nat) (E : cpp) (H : heap) (m : mem) (st : state)
           (S : sheap) (this : sptr) (name : str) (vs : list value) : outcome (sheap * (value * mem * state)) :=
  do (S1, os) <- sfunction S this name;
  do r <- moverloads_call B n E H m st os (ret_value H) vs; Ok (S1, r).
(* Scope::call<Ret>(name, args...) for a Ret other than Value *)
Definition mscope_call_ret (B : body) (n : nat) (E : cpp) (H : heap) (m : mem) (st : state)
           (S : sheap) (this : sptr) (name : str) (ret : argument) (vs : list value)
  : outcome (sheap * (option param * mem * state)) :=
  do (S1, os) <- sfunction S this name;
  do (x, st1) <- moverloads_call B n E H m st os ret vs;
  let '(w, m1) := x in
  do r <- mret_cast n E H m1 st1 w ret; Ok (S1, r).

(* the same with any C++ arguments, recording the callables run (ModelValue, ModelCall) *)
Definition scope_call_ret (n : nat) (E : cpp) (H : heap) (st : state) (S : sheap) (this : sptr) (name : str)
           (ret : argument) (cs : list carg) : outcome (sheap * (option param * state)) :=
  do (S1, os) <- sfunction S this name;
  do r <- overloads_call_ret n E H st os ret cs; Ok (S1, r).
