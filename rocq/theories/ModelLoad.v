(* ModelLoad.v - types loading one another: the reflect bodies of a whole program,
   run on demand by reflect::type<T>().
   Models src/registry.cpp 51-102 (get, load) together with what the bodies do to
   the Type objects (src/dsl/basics.h, src/dsl/type.h, src/dsl/field.h,
   src/dsl/function.h, src/type.{h,cpp,tcc}, src/argument.tcc 17-26).
   Simplifications: a type object is named by the position of its class in the
   program (one object per id: C17) and is blank until it is loaded; aliases and
   missing loaders are in ModelRegistry; the types void and Value, which the
   overload checks also ask for, are compared by name only; one thread. *)
From Coq Require String.
Import String.StringSyntax.
From Verif Require Import Base ModelCore ModelPlumb.
Local Open Scope outcome_scope.

(* One line of a reflect body.
   LParent: reflectParent (src/dsl/basics.h 16-28); LField: reflectField
   (src/dsl/field.h 32-33, src/type.tcc 26-31); LUse: a type<X>() whose result is only
   kept as a trait value (src/types/std/vector.h 28, map.h 31-32); LReg: the
   registrations of ModelPlumb. *)
Inductive lreg :=
| LParent (p : tptr)
| LField (name : str) (a : argument) (offset : N)
| LUse (t : tptr)
| LReg (r : reg).

Record decl := Decl { d_id : str; d_body : list lreg }.
(* the reflected classes of a program; which of them are void and Value *)
Record program := Program { p_decls : list decl; p_void : tptr; p_value : tptr }.

(* The type objects, and the types whose load has begun (the registry's types_). *)
Record lstate := LState { l_heap : heap; l_started : list tptr }.
Definition linit (P : program) : lstate :=
  LState (Heap (map (fun d => newType (d_id d)) (p_decls P)) (p_void P) (p_value P)) [].

(* The types a line asks for before it registers anything, in order:
   src/argument.tcc 17-26, src/function.tcc 109-116, src/field.tcc 17-22. *)
Definition asks (r : lreg) : list tptr :=
  match r with
  | LParent p => [p]
  | LField _ a _ => [a_type a]
  | LUse t => [t]
  | LReg (RFn _ ret args _) => a_type ret :: map a_type args
  | LReg (RPointer _ p) => [p]
  | LReg (RTrait _) => []
  end.

(* The effect of a line on the type being loaded *)
Definition lreg1 (H : heap) (T : tptr) (r : lreg) : outcome heap :=
  match r with
  | LReg r => reg1 H T r
  | _ =>
    match tget H T with
    | None => UB
    | Some t =>
      match r with
      | LParent p => Ok (set_type H T (setParent t (Some p)))
      | LField name a off =>
        do f <- makeField name a off;
        do t' <- addField t name f;
        Ok (set_type H T t')
      | _ => Ok H
      end
    end
  end.

(* type<X>() for each of ts; g is the lookup *)
Fixpoint load_each (g : lstate -> tptr -> outcome lstate) (st : lstate) (ts : list tptr) : outcome lstate :=
  match ts with
  | [] => Ok st
  | t :: ts' => do st1 <- g st t; load_each g st1 ts'
  end.

(* a reflect body, run on the type object T *)
Fixpoint run_body (g : lstate -> tptr -> outcome lstate) (T : tptr) (st : lstate) (rs : list lreg) : outcome lstate :=
  match rs with
  | [] => Ok st
  | r :: rs' =>
    do st1 <- load_each g st (asks r);
    do H' <- lreg1 (l_heap st1) T r;
    run_body g T (LState H' (l_started st1)) rs'
  end.

(* src/registry.cpp 51-66 and 69-89: a type that is known is given back as it is;
   otherwise its object is entered first and then its body runs.  n bounds the
   nesting (c70_terminates: the bound of `load` is never reached). *)
Fixpoint load_f (n : nat) (P : program) (st : lstate) (T : tptr) : outcome lstate :=
  match n with
  | O => OutOfFuel
  | S n' =>
    if existsb (Nat.eqb T) (l_started st) then Ok st else
    match nth_error (p_decls P) T with
    | None => UB
    | Some d => run_body (load_f n' P) T (LState (l_heap st) (T :: l_started st)) (d_body d)
    end
  end.
Definition load (P : program) : lstate -> tptr -> outcome lstate := load_f (S (length (p_decls P))) P.

(* a program that asks for the types ts, one after the other *)
Definition run_loads (P : program) (ts : list tptr) : outcome lstate := load_each (load P) (linit P) ts.
