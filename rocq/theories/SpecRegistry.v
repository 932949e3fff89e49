(* SpecRegistry.v - vocabulary of C17-C22 *)
From Verif Require Import Base ModelCore ModelRegistry.

(* name `id` designates type id `i`: through an alias if there is one *)
Definition names (st : rstate) (id i : str) : Prop :=
  In (id, i) (r_aliases st) \/ (i = id /\ ~ In id (map fst (r_aliases st))).
Definition has_type (st : rstate) (i : str) : Prop := In i (map fst (r_types st)).
Definition has_loader (st : rstate) (i : str) : Prop := In i (map fst (r_loaders st)).
(* type object t was created with id i *)
Definition object_id (st : rstate) (t : tptr) (i : str) : Prop := nth_error (r_objs st) t = Some i.

(* reachable registry states: any program, any history, failures caught *)
Definition reachable (P : prog) (st : rstate) : Prop := exists h, st = run P rinit h.

(* lookups one after the other, by (thread, id) *)
Fixpoint serial (P : prog) (st : rstate) (l : list (nat * str)) : rstate * list (nat * outcome tptr) :=
  match l with
  | [] => (st, [])
  | (i, id) :: l' =>
    let '(st1, r) := get P st id in
    let '(st2, rs) := serial P st1 l' in
    (st2, (i, r) :: rs)
  end.
