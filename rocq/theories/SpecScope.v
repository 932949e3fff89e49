(* SpecScope.v - specification of qualified names and of the scope tree
   (C23-C28).  Nothing here uses the functions of ModelScope.v that the theorems
   are about; it only reads the data of the scope objects. *)
From Coq Require String.
Import String.StringSyntax.
From Verif Require Import Base ModelCore ModelScope.

(* number of '<' (60) minus number of '>' (62); 58 is ':' *)
Fixpoint level (s : str) : Z :=
  match s with
  | [] => 0
  | c :: s' => (if N.eqb c 60%N then 1 else if N.eqb c 62%N then -1 else 0) + level s'
  end%Z.

(* s has a colon outside of template brackets, reading from the left *)
Definition toplevel_colon (s : str) : Prop := exists p q, s = p ++ 58%N :: q /\ level p = 0%Z.
(* ... reading from the right *)
Definition toplevel_colon_r (s : str) : Prop := exists p q, s = p ++ 58%N :: q /\ level q = 0%Z.

Definition sep : str := [58%N; 58%N].

(* What splitting off the first component must do. *)
Definition head_spec (name : str) (r : outcome (str * str)) : Prop :=
  match r with
  | Ok (h, t) =>
      level h = 0%Z /\ ~ toplevel_colon h /\ (name = h ++ sep ++ t \/ (name = h /\ t = []))
  | Abort => (* a lone top-level colon, or unbalanced brackets *)
      (exists p q, name = p ++ 58%N :: q /\ level p = 0%Z /\ ~ toplevel_colon p
         /\ forall q', q <> 58%N :: q')
      \/ (~ toplevel_colon name /\ level name <> 0%Z)
  | _ => False
  end.

(* What splitting off the last component must do (result: last, rest). *)
Definition tail_spec (name : str) (r : outcome (str * str)) : Prop :=
  match r with
  | Ok (t, h) =>
      level t = 0%Z /\ ~ toplevel_colon_r t /\ (name = h ++ sep ++ t \/ (name = t /\ h = []))
  | Abort =>
      (exists p q, name = p ++ 58%N :: q /\ level q = 0%Z /\ ~ toplevel_colon_r q
         /\ forall p', p <> p' ++ [58%N])
      \/ (~ toplevel_colon_r name /\ level name <> 0%Z)
  | _ => False
  end.

(* One component of a qualified name: non-empty, balanced, no top-level colon. *)
Definition component (c : str) : Prop := c <> [] /\ level c = 0%Z /\ ~ toplevel_colon c.

(* The qualified name made of components. *)
Fixpoint qname (cs : list str) : str :=
  match cs with
  | [] => []
  | [c] => c
  | c :: cs' => c ++ sep ++ qname cs'
  end.

(* Following child scopes by name from scope a. *)
Fixpoint walk (S : sheap) (a : sptr) (cs : list str) : option sptr :=
  match cs with
  | [] => Some a
  | c :: cs' =>
    match sget S a with
    | None => None
    | Some s => match afind c (s_scopes s) with Some b => walk S b cs' | None => None end
    end
  end.

(* What is visible from the global scope (object 0) at path x. *)
Definition vscope (S : sheap) (x : list str) : Prop := exists p, walk S 0 x = Some p.
Definition vtype (S : sheap) (x : list str) (c : str) : Prop :=
  exists p s, walk S 0 x = Some p /\ sget S p = Some s /\ In c (map fst (s_types s)).
Definition vfn (S : sheap) (x : list str) (c : str) (os : overloads) : Prop :=
  exists p s, walk S 0 x = Some p /\ sget S p = Some s /\ afind c (s_fns s) = Some os.

(* The scope objects form a tree rooted at object 0, consistent in both
   directions. *)
Record wf_scopes (S : sheap) : Prop := {
  ws_root : exists r, sget S 0 = Some r /\ s_parent r = None;
  ws_child : forall i s k j, sget S i = Some s -> In (k, j) (s_scopes s) ->
    i < j /\ exists sj, sget S j = Some sj /\ s_parent sj = Some i /\ s_name sj = k;
  ws_parent : forall j sj, sget S j = Some sj -> j <> 0 ->
    exists i si, s_parent sj = Some i /\ sget S i = Some si /\ In (s_name sj, j) (s_scopes si);
  ws_keys : forall i s, sget S i = Some s ->
    NoDup (map fst (s_scopes s)) /\ NoDup (map fst (s_types s)) /\ NoDup (map fst (s_fns s)) }.

(* x is a prefix of y *)
Definition prefix (x y : list str) : Prop := exists z, y = x ++ z.

(* Histories of well-formed operations on the global scope: qualified names are
   given by their components. *)
Inductive wop :=
| WScope (cs : list str)                    (* scope(cs) *)
| WType (cs : list str) (c : str)           (* addType(cs::c) *)
| WFunction (H : heap) (cs : list str) (c : str) (f : fn) (* addFunction(cs::c, f) *)
| WLookup (load : str -> outcome tptr) (cs : list str) (c : str). (* type(cs::c); load: what the registry answers then *)
Definition wop_ok (o : wop) : Prop :=
  match o with
  | WScope cs => cs <> [] /\ Forall component cs
  | WType cs c => Forall component (cs ++ [c])
  | WFunction _ cs c _ => Forall component (cs ++ [c])
  | WLookup _ cs c => Forall component (cs ++ [c])
  end.
Definition wop_op (o : wop) : scope_op :=
  match o with
  | WScope cs => OpScope 0 (qname cs)
  | WType cs c => OpAddType 0 (qname (cs ++ [c]))
  | WFunction H cs c f => OpAddFunction H 0 (qname (cs ++ [c])) f
  | WLookup load cs c => OpType load 0 (qname (cs ++ [c]))
  end.

(* What a history registers. *)
Definition reg_type (ops : list wop) (x : list str) (c : str) : Prop := In (WType x c) ops.
Definition reg_scope (ops : list wop) (x : list str) : Prop :=
  x = [] \/ exists o, In o ops /\
    match o with WScope cs => prefix x cs | WType cs _ => prefix x cs | WFunction _ cs _ _ => prefix x cs | WLookup _ _ _ => False end.
Fixpoint reg_fns (ops : list wop) (x : list str) (c : str) : overloads :=
  match ops with
  | [] => []
  | WFunction _ cs c' f :: ops' =>
    if list_eq_dec (list_eq_dec N.eq_dec) (cs ++ [c']) (x ++ [c]) then f :: reg_fns ops' x c else reg_fns ops' x c
  | _ :: ops' => reg_fns ops' x c
  end.
(* What the first successful type(x::c) of a history got from the registry: the answer that
   every later type(x::c) has to repeat. *)
Fixpoint first_lookup (ops : list wop) (x : list str) (c : str) : option tptr :=
  match ops with
  | [] => None
  | WLookup load cs c' :: ops' =>
    if list_eq_dec (list_eq_dec N.eq_dec) (cs ++ [c']) (x ++ [c])
    then match load (qname (x ++ [c])) with Ok ty => Some ty | _ => first_lookup ops' x c end
    else first_lookup ops' x c
  | _ :: ops' => first_lookup ops' x c
  end.
