(* SpecConfigStore.v - what a configuration with links means, without reference to how it is
   stored: the names defined so far and what they stand for. *)
From Verif Require Import Base.

(* the user sets a name to a value, or makes a name stand for whatever another one does *)
Inductive cstep (V : Type) := SetKey (k : str) (v : V) | LinkKey (k target : str).
Arguments SetKey {V}. Arguments LinkKey {V}.

(* the name a step defines *)
Definition defines {V} (s : cstep V) : str := match s with SetKey k _ => k | LinkKey k _ => k end.

(* what a name stands for, given everything the user did, in whatever order *)
Inductive resolves {V} (h : list (cstep V)) : str -> V -> Prop :=
| res_set k v : In (SetKey k v) h -> resolves h k v
| res_link k t v : In (LinkKey k t) h -> resolves h t v -> resolves h k v.
