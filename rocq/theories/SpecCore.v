(* SpecCore.v - independent specifications for the type / matching / overload
   properties (C01-C13).  Nothing here calls the functions of ModelCore.v that
   the theorems are about; only the data types and `tget` are shared. *)
From Coq Require String.
Import String.StringSyntax.
From Coq Require Import Permutation Sorting.Sorted Relations.
From Verif Require Import Base ModelCore.

Definition valid (H : heap) (p : tptr) : Prop := p < length (h_types H).

(* a declares p as its parent *)
Definition parent_of (H : heap) (a p : tptr) : Prop :=
  exists t, tget H a = Some t /\ t_parent t = Some p.

(* a is a pointer-like type (raw, smart...) *)
Definition is_ptr (H : heap) (a : tptr) : Prop :=
  exists t, tget H a = Some t /\ In (lit "pointer") (t_traits t).

(* a is a pointer-like type of kind k to p *)
Definition points_to (H : heap) (a : tptr) (k : str) (p : tptr) : Prop :=
  exists t, tget H a = Some t /\ In (lit "pointer") (t_traits t) /\ t_pointer t = k /\ t_pointee t = Some p.

Definition link (H : heap) (a p : tptr) : Prop :=
  exists t, tget H a = Some t /\ (t_parent t = Some p \/ t_pointee t = Some p).

(* Well-formed type graphs: links point to existing types, pointer types have a
   pointee, and the parent/pointee links are acyclic. *)
Record wf_heap (H : heap) : Prop := {
  wf_links : forall a p, link H a p -> valid H p;
  wf_ptr : forall a, is_ptr H a -> exists k p, points_to H a k p;
  wf_acyclic : exists rank : tptr -> nat, forall a p, link H a p -> rank p < rank a;
  wf_void : valid H (h_void H);
  wf_value : valid H (h_value H) }.

(* C01: subtyping *)
Inductive Subtype (H : heap) : tptr -> tptr -> Prop :=
| Sub_refl a : Subtype H a a
| Sub_parent a p b : parent_of H a p -> ~ (is_ptr H a /\ is_ptr H b) -> Subtype H p b -> Subtype H a b
| Sub_pointer a b k pa pb : points_to H a k pa -> points_to H b k pb -> Subtype H pa pb -> Subtype H a b.

(* C01: pointer types take no part in inheritance *)
Definition pointers_not_inherited (H : heap) : Prop :=
  forall a p, parent_of H a p -> ~ is_ptr H a /\ ~ is_ptr H p.
(* C01: one type object per (pointer kind, pointee) *)
Definition pointers_unique (H : heap) : Prop :=
  forall a b k p, points_to H a k p -> points_to H b k p -> a = b.

(* a (or an ancestor) registers the function name n *)
Definition declares_fn (H : heap) (a : tptr) (n : str) : Prop :=
  exists t, tget H a = Some t /\ In n (map fst (t_fns t)).
Definition declares_field (H : heap) (a : tptr) (n : str) : Prop :=
  exists t, tget H a = Some t /\ In n (map fst (t_fields t)).
Definition ancestor (H : heap) : tptr -> tptr -> Prop := clos_refl_trans_1n tptr (parent_of H).

(* C04: a user conversion from a to b exists *)
Definition has_user_conversion (H : heap) (a b : tptr) : Prop :=
  exists tb c, tget H b = Some tb /\ ancestor H a c /\
    declares_fn H c (lit "operator " ++ t_id tb ++ lit "()").

(* C04: may a reference/value parameter t be initialised from a, types aside? *)
Definition legal_binding (a t : argument) : Prop :=
  match a_ref t with
  | Copy => True
  | LValue => a_const t = true \/ (a_const a = false /\ a_ref a = LValue)
  | RValue => a_ref a = RValue /\ (a_const a = true -> a_const t = true)
  end.

Definition same_category (a t : argument) : Prop :=
  (a_ref a = a_ref t /\ a_const a = a_const t) \/ (a_ref a = RValue /\ a_ref t = Copy).

Definition one_is_value (H : heap) (a t : argument) : Prop :=
  (a_type a = h_value H /\ a_type t <> h_value H) \/ (a_type a <> h_value H /\ a_type t = h_value H).

(* C04: the decision table *)
Inductive Grade (H : heap) (a t : argument) : grade -> Prop :=
| G_same : a = t -> Grade H a t MExact
| G_value : a <> t -> one_is_value H a t -> Grade H a t MExact
| G_conv : a <> t -> ~ one_is_value H a t -> has_user_conversion H (a_type a) (a_type t) ->
    a_ref t <> LValue -> Grade H a t MPartial
| G_conv_lref : a <> t -> ~ one_is_value H a t -> has_user_conversion H (a_type a) (a_type t) ->
    a_ref t = LValue -> Grade H a t MNone
| G_illegal : a <> t -> ~ one_is_value H a t -> ~ has_user_conversion H (a_type a) (a_type t) ->
    ~ (legal_binding a t /\ Subtype H (a_type a) (a_type t)) -> Grade H a t MNone
| G_exact : a <> t -> ~ one_is_value H a t -> ~ has_user_conversion H (a_type a) (a_type t) ->
    legal_binding a t -> Subtype H (a_type a) (a_type t) -> same_category a t -> Grade H a t MExact
| G_partial : a <> t -> ~ one_is_value H a t -> ~ has_user_conversion H (a_type a) (a_type t) ->
    legal_binding a t -> Subtype H (a_type a) (a_type t) -> ~ same_category a t -> Grade H a t MPartial.

(* C05: None < Partial < Exact *)
Definition rank_of (g : grade) : nat := match g with MNone => 0 | MPartial => 1 | MExact => 2 end.
Definition weakest (gs : list grade) (g : grade) : Prop :=
  (forall x, In x gs -> rank_of g <= rank_of x) /\ (In g gs \/ (gs = [] /\ g = MExact)).

(* C06: outcome of overload resolution given the grade of every overload *)
Definition no_exact (l : list (fn * grade)) : Prop := forall f g, In (f, g) l -> g <> MExact.
Definition resolution_spec (l : list (fn * grade)) (r : resolution) : Prop :=
  match r with
  | Chosen f =>
      (exists l1 l2, l = l1 ++ (f, MExact) :: l2 /\ no_exact l1)
      \/ (no_exact l /\ exists l1 l2, l = l1 ++ (f, MPartial) :: l2
          /\ (forall h g, In (h, g) (l1 ++ l2) -> g = MNone))
  | NoOverload => forall f g, In (f, g) l -> g = MNone
  | Ambiguous => no_exact l /\ exists l1 f l2 h l3,
      l = l1 ++ (f, MPartial) :: l2 ++ (h, MPartial) :: l3
  end.

(* C11: x is what the nearest declaring ancestor of a declares under name n.
   `own` reads the immediate declarations of one type. *)
Inductive Nearest {V} (H : heap) (own : typerec -> list (str * V)) (n : str) : tptr -> V -> Prop :=
| Near_here a t x : tget H a = Some t -> afind n (own t) = Some x -> Nearest H own n a x
| Near_parent a t p x : tget H a = Some t -> ~ In n (map fst (own t)) -> t_parent t = Some p ->
    Nearest H own n p x -> Nearest H own n a x.

(* C12: same heap up to the iteration order of the hash maps *)
Definition same_type_upto_order (t u : typerec) : Prop :=
  t_id t = t_id u /\ t_parent t = t_parent u /\ t_traits t = t_traits u /\
  t_pointer t = t_pointer u /\ t_pointee t = t_pointee u /\
  Permutation (t_fields t) (t_fields u) /\ Permutation (t_fns t) (t_fns u).
Definition same_heap_upto_order (H K : heap) : Prop :=
  Forall2 same_type_upto_order (h_types H) (h_types K) /\ h_void H = h_void K /\ h_value H = h_value K.

Definition strictly_sorted (l : list str) : Prop := StronglySorted (fun a b => str_ltb a b = true) l.

(* arguments and functions whose types exist *)
Definition arg_valid (H : heap) (a : argument) : Prop := valid H (a_type a).
Definition fn_valid (H : heap) (f : fn) : Prop := arg_valid H (f_ret f) /\ Forall (arg_valid H) (f_args f).

(* C07: overload sets reachable by registration; the heap may differ at each step *)
Inductive Built : overloads -> Prop :=
| Built_nil : Built []
| Built_add H os f os' : Built os -> overloads_add H os f = Ok os' -> Built os'.
(* with a fixed heap *)
Inductive BuiltIn (H : heap) : overloads -> Prop :=
| BuiltIn_nil : BuiltIn H []
| BuiltIn_add os f os' : BuiltIn H os -> overloads_add H os f = Ok os' -> BuiltIn H os'.

(* C08: number of overloads matching exactly *)
Definition exact_count (l : list (fn * grade)) : nat :=
  length (filter (fun p => grade_eqb (snd p) MExact) l).

(* C10: no name is both a field and a function; names are unique *)
Definition members_ok (t : typerec) : Prop :=
  (forall n, In n (map fst (t_fields t)) -> In n (map fst (t_fns t)) -> False)
  /\ NoDup (map fst (t_fields t)) /\ NoDup (map fst (t_fns t)).
