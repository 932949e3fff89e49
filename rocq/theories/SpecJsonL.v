(* SpecJsonL.v - memory with objects that are destroyed: dangling pointers, ownership,
   and chains of pointers. *)
From Verif Require Import Base ModelJson ModelJsonT ModelJsonH ModelJsonL.

(* the object is alive *)
Definition live (m : lstore) (a : nat) : Prop := exists h, nth_error m a = Some (Some h).
(* an object alive holds a pointer of this kind (true: smart) to y *)
Definition pointer (m : lstore) (k : bool) (y : nat) : Prop := exists x h, nth_error m x = Some (Some h) /\ In (k, y) (ptrs h).
(* x is alive and holds a pointer to y *)
Definition points (m : lstore) (x y : nat) : Prop := exists h k, nth_error m x = Some (Some h) /\ In (k, y) (ptrs h).

(* no pointer in an object alive leads to one that is not *)
Definition no_dangling (m : lstore) : Prop := forall k y, pointer m k y -> live m y.
(* no object, unless somebody outside owns it, is pointed to both by a smart pointer and by
   a plain one *)
Definition apart (ext : list nat) (m : lstore) : Prop :=
  forall y, pointer m false y -> pointer m true y -> In y ext.
(* every chain of pointers that starts at a comes to an end *)
Definition chains_end (m : lstore) (a : nat) : Prop := Acc (fun y x => points m x y) a.
(* x is a, or a chain of pointers leads from a to x *)
Inductive reached (m : lstore) (a : nat) : nat -> Prop :=
| rd_here : reached m a a
| rd_step x y : reached m a x -> points m x y -> reached m a y.

(* the memory of ModelJsonH, where nothing is destroyed, holds the same objects *)
Fixpoint erase (h : lval) : hval :=
  match h with
  | LV v => HV v
  | LP _ p => HP p
  | LL l => HL (map erase l)
  | LM l => HM (map (fun kv => (fst kv, erase (snd kv))) l)
  | LO l => HO (map (fun kv => (fst kv, erase (snd kv))) l)
  end.
Definition agree (m : lstore) (mh : store) : Prop :=
  length mh = length m /\ forall a h, nth_error m a = Some (Some h) -> nth_error mh a = Some (erase h).
