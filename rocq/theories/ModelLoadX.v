(* ModelLoadX.v - loading types on demand when the library is built with
   REFLECT_USE_EXCEPTIONS: an error in a reflect body is an exception the program may
   catch, and it may go on asking for types.
   Models src/registry.cpp 51-102 (get, load, add), src/error.h 17-60,
   and the bodies of ModelLoad.  Simplifications: those of ModelLoad; no body
   catches an exception itself.  A registration that raises leaves the type as it
   was: Type::addField, addFunction, addTrait, setPointer and Overloads::add check
   before they insert (src/type.cpp, src/overloads.cpp). *)
From Coq Require String.
Import String.StringSyntax.
From Verif Require Import Base ModelCore ModelPlumb ModelLoad.

(* How a request ends: with the type, with an exception, or neither *)
Inductive ended := Fine | Raised | Stuck.

(* type<X>() for each of ts; the first exception leaves through all of it *)
Fixpoint each_x (g : lstate -> tptr -> lstate * ended) (st : lstate) (ts : list tptr) : lstate * ended :=
  match ts with
  | [] => (st, Fine)
  | t :: ts' =>
    let (st1, e) := g st t in
    match e with Fine => each_x g st1 ts' | _ => (st1, e) end
  end.

(* a reflect body (src/dsl/basics.h 31-50, src/dsl/field.h, src/dsl/function.h), run
   on the type object T *)
Fixpoint body_x (g : lstate -> tptr -> lstate * ended) (T : tptr) (st : lstate) (rs : list lreg) : lstate * ended :=
  match rs with
  | [] => (st, Fine)
  | r :: rs' =>
    let (st1, e) := each_x g st (asks r) in
    match e with
    | Fine =>
      match lreg1 (l_heap st1) T r with
      | Ok H' => body_x g T (LState H' (l_started st1)) rs'
      | Abort => (st1, Raised)
      | _ => (st1, Stuck)
      end
    | _ => (st1, e)
    end
  end.

(* src/registry.cpp 51-66: a known type is given back.  69-89: an id without loader
   is an error; otherwise the loader is erased, the new Type is entered, and only then
   the body runs: nothing takes the Type out again when the body raises. *)
Fixpoint load_xf (n : nat) (P : program) (st : lstate) (T : tptr) : lstate * ended :=
  match n with
  | O => (st, Stuck)
  | S n' =>
    if existsb (Nat.eqb T) (l_started st) then (st, Fine) else
    match nth_error (p_decls P) T with
    | None => (st, Raised)
    | Some d => body_x (load_xf n' P) T (LState (l_heap st) (T :: l_started st)) (d_body d)
    end
  end.
Definition load_x (P : program) : lstate -> tptr -> lstate * ended := load_xf (S (length (p_decls P))) P.

(* A program that asks for ts one after the other, each in a try block that catches
   everything: the registry afterwards, and how each request ended *)
Fixpoint attempts_from (P : program) (st : lstate) (ts : list tptr) : lstate * list (tptr * ended) :=
  match ts with
  | [] => (st, [])
  | t :: ts' =>
    let (st1, e) := load_x P st t in
    let (st2, log) := attempts_from P st1 ts' in
    (st2, (t, e) :: log)
  end.
Definition attempts (P : program) (ts : list tptr) : lstate * list (tptr * ended) := attempts_from P (linit P) ts.
