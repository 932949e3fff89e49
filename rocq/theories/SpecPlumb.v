(* SpecPlumb.v - specification vocabulary for C56-C58 (what a reflect body leaves
   behind).  Reads registration lists; calls none of the registration functions (loads names register and the two queries). *)
From Coq Require String.
Import String.StringSyntax.
From Verif Require Import Base ModelCore SpecCore ModelPlumb.

(* T is a type object just created under that id, nothing registered on it yet *)
Definition fresh (H : heap) (T : tptr) (id : str) : Prop := tget H T = Some (newType id).

(* the functions a body registers under a name, in order *)
Definition fns_of (n : str) (rs : list reg) : overloads :=
  flat_map (fun r => match r with
                     | RFn m ret args code => if str_eqb n m then [Fn m ret args code] else []
                     | _ => [] end) rs.
(* the traits a body adds, in order; becoming a pointer counts as one *)
Definition traits_of (rs : list reg) : list str :=
  flat_map (fun r => match r with RTrait n => [n] | RPointer _ _ => [lit "pointer"] | _ => [] end) rs.
(* the pointer kind and pointee a body sets *)
Definition pointer_of (rs : list reg) : option (str * tptr) :=
  fold_left (fun o r => match r with RPointer k p => Some (k, p) | _ => o end) rs None.

(* H' is H in which only the type object T changed *)
Definition only_changes (H H' : heap) (T : tptr) : Prop :=
  (forall u, u <> T -> tget H' u = tget H u) /\ length (h_types H') = length (h_types H) /\
  h_void H' = h_void H /\ h_value H' = h_value H.

(* T now carries exactly what the body rs registers *)
Definition carries (H' : heap) (T : tptr) (id : str) (rs : list reg) : Prop :=
  exists t, tget H' T = Some t /\ t_id t = id /\ t_parent t = None /\ t_fields t = [] /\
    t_traits t = traits_of rs /\
    (forall k p, pointer_of rs = Some (k, p) -> t_pointer t = k /\ t_pointee t = Some p) /\
    (pointer_of rs = None -> t_pointer t = [] /\ t_pointee t = None) /\
    (forall n, afind n (t_fns t) = match fns_of n rs with [] => None | l => Some l end).

(* pointing T at p closes no cycle of parents and pointees *)
Definition may_point (H : heap) (T p : tptr) : Prop :=
  valid H p /\ exists rank : tptr -> nat,
    (forall a q, link H a q -> rank q < rank a) /\ rank p < rank T.

(* what a constructor call / an assignment picks *)
Definition ctor_choice (id : str) (T : tptr) (k : caps) (b : nat) (args : list argument) : resolution :=
  match args with
  | [] => if k_def k then Chosen (Fn id (Arg T Copy false) [] b) else NoOverload
  | [a] => if ref_eqb (a_ref a) RValue && negb (a_const a) then Chosen (Fn id (Arg T Copy false) [Arg T RValue false] (b + 3))
           else if k_copy k then Chosen (Fn id (Arg T Copy false) [Arg T LValue true] (b + 1)) else NoOverload
  | _ => NoOverload
  end.
Definition assign_choice (T : tptr) (k : caps) (b : nat) (obj a : argument) : resolution :=
  if negb (ref_eqb (a_ref obj) LValue && negb (a_const obj)) then NoOverload else
  if ref_eqb (a_ref a) RValue && negb (a_const a) && k_move_assign k
  then Chosen (Fn (lit "operator=") (Arg T LValue false) [Arg T LValue false; Arg T RValue false] (b + 4))
  else if k_copy_assign k
  then Chosen (Fn (lit "operator=") (Arg T LValue false) [Arg T LValue false; Arg T LValue true] (b + 2))
  else NoOverload.

(* the body rs is accepted in full and leaves exactly what it lists; k tells what
   the C++ type can do *)
Definition loads (H : heap) (T : tptr) (id : str) (k : caps) (rs : list reg) : Prop :=
  exists H', register H T rs = Ok H' /\ wf_heap H' /\ only_changes H H' T /\ carries H' T id rs /\
    isCopiable H' T = Ok (k_copy k && k_move k) /\ isMovable H' T = Ok (k_move k).

(* type ids the operator macros cannot tell from an operator *)
Definition is_operator (n : str) : Prop := exists s, n = lit "operator" ++ s.
(* the overloadable operators that have one form as a member: compound assignment,
   arithmetic, bits, logic, comparison, call, index, indirection *)
Definition operator_names : list str :=
  [lit "operator+="; lit "operator-="; lit "operator*="; lit "operator/="; lit "operator%="; lit "operator&="; lit "operator|="; lit "operator^=";
   lit "operator<<="; lit "operator>>=";
   lit "operator+"; lit "operator-"; lit "operator*"; lit "operator/"; lit "operator%"; lit "operator~"; lit "operator&"; lit "operator|"; lit "operator^";
   lit "operator<<"; lit "operator>>"; lit "operator!"; lit "operator&&"; lit "operator||";
   lit "operator=="; lit "operator!="; lit "operator<"; lit "operator>"; lit "operator<="; lit "operator>="; lit "operator()"; lit "operator[]"].
(* the types in the signatures of the operator members exist *)
Definition ops_valid (H : heap) (ops : str -> option op_member) : Prop :=
  forall n ret args code, ops n = Some (ret, args, code) -> arg_valid H ret /\ Forall (arg_valid H) args.
