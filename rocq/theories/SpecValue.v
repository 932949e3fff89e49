(* SpecValue.v - specification of argument passing and of const views
   (C14, C15, C52-C55).  Shares the data types of ModelCore / ModelValue and the
   declarative relations of SpecCore; calls none of the cast or call functions. *)
From Coq Require String.
Import String.StringSyntax.
From Coq Require Import Relations.
From Verif Require Import Base ModelCore SpecCore ModelValue.

(* T has the constructors a plumbed, copiable C++ type has, as far as an argument
   of type C is concerned: a copy constructor T(const T&), at most one other
   constructor per signature, and every other one-argument constructor is either
   the move constructor T(T&&) or takes something a C is not. *)
Record plumbed (E : cpp) (H : heap) (C T : tptr) : Prop := {
  pl_type : exists t fns code,
    tget H T = Some t /\ function H T (t_id t) = Ok fns /\
    Forall (fn_valid H) fns /\
    In (Fn (t_id t) (Arg T Copy false) [Arg T LValue true] code) fns /\
    NoDup (map (fun f => (f_ret f, f_args f)) fns) /\
    forall f p, In f fns -> f_args f = [p] ->
      f = Fn (t_id t) (Arg T Copy false) [p] (f_code f) /\
        (p = Arg T LValue true \/ p = Arg T RValue false)
      \/ a_type p <> h_value H /\ ~ Subtype H C (a_type p) /\ ~ has_user_conversion H C (a_type p);
  pl_void : T <> h_void H;
  pl_value : T <> h_value H;
  pl_conv : ~ has_user_conversion H T T;
  pl_copyable : cpp_copyable E T = true;
  pl_movable : cpp_movable E T = true }.

(* code is one of the constructors of T *)
Definition ctor_code (H : heap) (T : tptr) (code : nat) : Prop :=
  exists t fns f, tget H T = Some t /\ function H T (t_id t) = Ok fns /\ In f fns /\ f_code f = code.

(* The conversion from C to T is a single function taking the object by const
   reference and returning a T by value. *)
Definition conversion_fn (H : heap) (C T : tptr) (code : nat) : Prop :=
  exists t name P, tget H T = Some t /\
    function H C (lit "operator " ++ t_id t ++ lit "()")
      = Ok [Fn name (Arg T Copy false) [Arg P LValue true] code] /\
    valid H P /\ P <> h_value H /\ Subtype H C P /\ ~ has_user_conversion H C P.
Definition conversion_ok (E : cpp) (H : heap) (C T : tptr) : Prop :=
  (exists code, conversion_fn H C T code) /\ T <> h_void H /\ T <> h_value H /\
  cpp_copyable E T = true /\ cpp_movable E T = true.

(* The provisos of C14 for one argument c and one parameter p: see the English
   statement.  C is the argument's type, T the parameter's. *)
Definition passable (E : cpp) (H : heap) (c : carg) (p : argument) : Prop :=
  let C := a_type (carg_arg c) in let T := a_type p in
  match c with CRaw a _ => a_ref a = RValue -> storable E C (a_const a) = true | CVal _ => True end /\
  C <> h_value H /\
  ((T = h_value H /\ a_ref p = Copy) \/
   (T <> h_value H /\
    match a_ref p with
    | LValue => True
    | RValue => isMovable H T = Ok true /\ cpp_movable E T = true /\
                (Subtype H C T \/ conversion_ok E H C T)
    | Copy => (Subtype H C T /\ ~ has_user_conversion H C T /\ plumbed E H C T) \/
              (~ Subtype H C T /\ isCopiable H T = Ok true /\ conversion_ok E H C T)
    end)).

(* The Value that carries an argument: a Value is carried as such, an lvalue is
   referred to in place, an rvalue is stored in a fresh object. *)
Inductive Carried (st : state) : carg -> value -> state -> Prop :=
| Carried_value v : Carried st (CVal v) v st
| Carried_lvalue a x : a_ref a <> RValue -> Carried st (CRaw a x) (Val a x false) st
| Carried_rvalue a x : a_ref a = RValue ->
    Carried st (CRaw a x) (Val (Arg (a_type a) LValue false) (st_next st, 0%N) true)
            (St (S (st_next st)) (st_log st)).

(* What a parameter p receives from the carried argument v. *)
Inductive Passed (H : heap) (st : state) (v : value) (p : argument) : param -> state -> Prop :=
| Passed_value : a_type p = h_value H -> Passed H st v p (PVal v) st
| Passed_lref : a_ref p = LValue -> Subtype H (v_type v) (a_type p) ->
    (a_const p = false -> a_const (v_arg v) = false /\ a_ref (v_arg v) = LValue) ->
    Passed H st v p (PRef (v_addr v)) st
| Passed_rref : a_ref p = RValue -> Subtype H (v_type v) (a_type p) ->
    Passed H st v p (PMove (v_addr v)) st
| Passed_copy code q : a_ref p = Copy -> Subtype H (v_type v) (a_type p) ->
    ctor_code H (a_type p) code ->
    q = PRef (v_addr v) \/ (q = PMove (v_addr v) /\ a_ref (v_arg v) = RValue /\ a_const (v_arg v) = false) ->
    Passed H st v p (PCopy (st_next st, 0%N)) (St (S (st_next st)) (st_log st ++ [(code, [q])]))
| Passed_converted code : a_ref p <> LValue -> ~ Subtype H (v_type v) (a_type p) ->
    conversion_fn H (v_type v) (a_type p) code ->
    Passed H st v p (if ref_eqb (a_ref p) RValue then PMove (st_next st, 0%N) else PCopy (st_next st, 0%N))
           (St (S (st_next st)) (st_log st ++ [(code, [PRef (v_addr v)])])).

(* left to right over an argument list *)
Inductive CarriedAll : state -> list carg -> list value -> state -> Prop :=
| CA_nil st : CarriedAll st [] [] st
| CA_cons st c v st1 cs vs st2 : Carried st c v st1 -> CarriedAll st1 cs vs st2 ->
    CarriedAll st (c :: cs) (v :: vs) st2.
Inductive PassedAll (H : heap) : state -> list value -> list argument -> list param -> state -> Prop :=
| PA_nil st : PassedAll H st [] [] [] st
| PA_cons st v p q st1 vs ps qs st2 : Passed H st v p q st1 -> PassedAll H st1 vs ps qs st2 ->
    PassedAll H st (v :: vs) (p :: ps) (q :: qs) st2.

(* The Value a callable f gives back when invoked with parameters qs. *)
Inductive Returned (E : cpp) (H : heap) (f : fn) (qs : list param) (st : state) : value -> state -> Prop :=
| Returned_void v : a_type (f_ret f) = h_void H -> v_type v = h_void H ->
    Returned E H f qs st v (St (st_next st) (st_log st ++ [(f_code f, qs)]))
| Returned_value : a_type (f_ret f) <> h_void H -> a_type (f_ret f) = h_value H ->
    Returned E H f qs st (cpp_val_result E (f_code f) qs) (St (st_next st) (st_log st ++ [(f_code f, qs)]))
| Returned_ref : a_type (f_ret f) <> h_void H -> a_type (f_ret f) <> h_value H -> a_ref (f_ret f) = LValue ->
    Returned E H f qs st (Val (f_ret f) (cpp_ref_result E (f_code f) qs) false)
             (St (st_next st) (st_log st ++ [(f_code f, qs)]))
| Returned_temp : a_type (f_ret f) <> h_void H -> a_type (f_ret f) <> h_value H -> a_ref (f_ret f) <> LValue ->
    Returned E H f qs st (Val (Arg (a_type (f_ret f)) LValue false) (st_next st, 0%N) true)
             (St (S (st_next st)) (st_log st ++ [(f_code f, qs)])).

(* the C++ compiler only accepts by-value results that can be moved or copied *)
Definition returnable (E : cpp) (H : heap) (f : fn) : Prop :=
  a_type (f_ret f) <> h_void H -> a_type (f_ret f) <> h_value H -> a_ref (f_ret f) <> LValue ->
  storable E (a_type (f_ret f)) (a_const (f_ret f)) = true.

(* The provisos of C52 for a result of reflected type r requested as ret. *)
Definition result_ok (E : cpp) (H : heap) (r ret : argument) : Prop :=
  a_type ret = h_void H \/ (a_type ret = h_value H /\ a_ref ret = Copy) \/
  (a_type ret <> h_void H /\ a_type ret <> h_value H /\ a_type r <> h_value H /\
   match a_ref ret with
   | LValue => True
   | RValue => False
   | Copy => let C := a_type r in let T := a_type ret in
       (Subtype H C T /\ ~ has_user_conversion H C T /\ plumbed E H C T) \/
       (~ Subtype H C T /\ isCopiable H T = Ok true /\ conversion_ok E H C T)
   end).

(* C15: one view operation on a handle *)
Inductive view (E : cpp) (H : heap) : value -> value -> Prop :=
| View_copy v : view E H v (handle_copy v)
| View_const v : view E H v (toConst v)
| View_rvalue v : view E H v (rvalue v)
| View_field v name w : value_field H v name = Ok w -> view E H v w
| View_cast_ref n st v t w st' : a_ref t = LValue -> cast_f n E H st v t = Ok (w, st') -> view E H v w.
Definition views (E : cpp) (H : heap) : value -> value -> Prop := clos_refl_trans_1n value (view E H).
