(* SpecOps.v - what a call that asks for a C++ result gives (C73), relative to the
   same call made without asking. *)
From Coq Require String.
Import String.StringSyntax.
From Verif Require Import Base ModelCore SpecCore ModelValue SpecValue ModelPlumb SpecPlumb ModelCont SpecCont ModelPtr SpecPtr ModelPlain SpecPlain ModelOps.

(* a result declared as have may be asked for as want: dropped, copied, or referred
   to if it is a reference, which must not lose its constness *)
Definition fits (H : heap) (have want : argument) : Prop :=
  a_type want = h_void H \/
  (a_type have = a_type want /\
   match a_ref want with
   | Copy => a_const want = false
   | LValue => a_ref have = LValue /\ (a_const want = true \/ a_const have = false)
   | RValue => False
   end).
(* the function returns a value or a reference to one (or nothing, if nothing is asked for) *)
Definition returns (H : heap) (f : fn) (want : argument) : Prop :=
  a_type (f_ret f) <> h_value H /\ a_ref (f_ret f) <> RValue /\ fits H (f_ret f) want.

(* the number or the raw pointer at a *)
Definition item (m : mem) (a : addr) (d : datum) : Prop :=
  (exists p, m (fst a) = DPtr p /\ d = DPtr p) \/ (exists p, read m a = Some p /\ d = DData p).

(* w is the Value the call would give in memory m; r is what is given when asked for want *)
Definition delivered (H : heap) (m : mem) (w : value) (want : argument) (r : option param) (m' : mem) : Prop :=
  if Nat.eqb (a_type want) (h_void H) then r = None /\ m' = m else
  match a_ref want with
  | Copy => exists o, r = Some (PCopy (o, 0%N)) /\ m o = DNone /\ item m (v_addr w) (m' o) /\
                      forall y, y <> o -> m' y = m y
  | _ => r = Some (PRef (v_addr w)) /\ m' = m
  end.

(* what the caller has to have for want: nothing for void, the type's plumbing and
   something to copy for a copy *)
Definition askable (E : cpp) (H : heap) (want : argument) : Prop :=
  let X := a_type want in
  X = h_void H \/
  (X <> h_value H /\ valid H X /\ ~ has_user_conversion H X X /\ (a_ref want = Copy -> plumbed E H X X)).

(* the operators of Value (value.h) *)
Definition value_operators : list str :=
  [ lit "operator+="; lit "operator-="; lit "operator*="; lit "operator/="; lit "operator%="; lit "operator&=";
    lit "operator|="; lit "operator^="; lit "operator<<="; lit "operator>>=";
    lit "operator++"; lit "operator--";
    lit "operator+"; lit "operator-"; lit "operator*"; lit "operator/"; lit "operator%"; lit "operator~";
    lit "operator&"; lit "operator|"; lit "operator^"; lit "operator<<"; lit "operator>>";
    lit "operator!"; lit "operator&&"; lit "operator||";
    lit "operator=="; lit "operator!="; lit "operator<"; lit "operator>"; lit "operator<="; lit "operator>=";
    lit "operator()"; lit "operator[]"; lit "operator bool()" ].

(* the types of the library, and the operators each of them reflects *)
Inductive library (H : heap) (T : tptr) (id : str) : list str -> Prop :=
| L_number PT R n k b : carries H T id (number id T PT R n k b) -> library H T id [lit "operator+"]
| L_string PT Z k b : carries H T id (stdString id T PT Z k b) -> library H T id []
| L_class PT k b : carries H T id (plumbing id T k b ++ allocPlumbing T PT k (b + 5)) -> library H T id []
| L_vector V Z vd k b : carries H T id (stdVector id T V Z vd k b) -> library H T id [lit "operator[]"]
| L_map K V KV Z k b : carries H T id (stdMap id T K V KV Z k b) -> library H T id [lit "operator[]"]
| L_pointer P B k b : carries H T id (rawPointer id T P B k b) -> library H T id [lit "operator bool()"; lit "operator*"]
| L_shared P PP B vd k b : carries H T id (sharedPtr id T P PP B vd k b) ->
    library H T id [lit "operator bool()"; lit "operator*"; lit "operator=="]
| L_unique P PP B vd k b : carries H T id (uniquePtr id T P PP B vd k b) ->
    library H T id [lit "operator bool()"; lit "operator*"; lit "operator=="].
(* id is not the name of an operator *)
Definition type_name (id : str) : Prop := firstn 8 id <> lit "operator".
(* the answer b to a question *)
Definition tells (b : bool) (Q : Prop) : Prop := b = true /\ Q \/ b = false /\ ~ Q.
(* the C++ object a call by value gives: a new one holding p *)
Definition gives_number (m m' : mem) (r : option param) (p : N) : Prop :=
  exists o, r = Some (PCopy (o, 0%N)) /\ m o = DNone /\ m' o = DData p.

(* how C++ spells the operators of Value that give a bool *)
Inductive spelled : boolop -> str -> Prop :=
| Sp_and : spelled VAnd (lit "operator&&") | Sp_or : spelled VOr (lit "operator||")
| Sp_eq : spelled VEq (lit "operator==") | Sp_ne : spelled VNe (lit "operator!=")
| Sp_lt : spelled VLt (lit "operator<") | Sp_gt : spelled VGt (lit "operator>")
| Sp_le : spelled VLe (lit "operator<=") | Sp_ge : spelled VGe (lit "operator>=").
(* a type's function name returns a bool by value, called on v and vs it ends in memory
   m1 with the result p *)
Record says (B : body) (n : nat) (E : cpp) (H : heap) (m : mem) (st : state) (tb : tptr) (name : str)
            (v : value) (vs : list value) (m1 : mem) (p : N) : Prop := {
  sy_returns : exists os, function H (v_type v) name = Ok os /\ forall f, In f os -> f_ret f = Arg tb Copy false;
  sy_call : exists w st1, mtype_call B n E H m st (v_type v) name (v :: vs) = Ok (w, m1, st1) /\
      unborn m1 (st_next st1) /\ owns_number tb m1 w p;
  sy_kept : forall y, m1 y = DNone -> m y = DNone }.
