(* SpecJsonH.v - objects in memory, seen as values: what a graph of objects stands for
   when pointers are followed, and when it is a tree. *)
From Verif Require Import Base Dec ModelJson ModelJsonW ModelJsonT ModelJsonH.

Definition scalar (d : jtype) : Prop := match d with DBool | DInt _ | DFloat _ | DStr | DVoid => True | _ => False end.
Definition plain (v : val) : Prop := match v with VPtr _ | VList _ | VMap _ | VObj _ => False | _ => True end.
(* the members of a class: name and type *)
Definition member_of (fs : list field) (k : str) (t : nat) : Prop := exists f, In f fs /\ f_key f = k /\ f_type f = t.
Definition same_names {V} (fs : list field) (o : list (str * V)) : Prop := forall k, In k (akeys o) <-> In k (map f_key fs).

(* v is the state of an object of type t *)
Inductive built (e : env) : nat -> val -> Prop :=
| bu_scalar t d v : nth_error e t = Some d -> scalar d -> plain v -> built e t v
| bu_null t sm i : nth_error e t = Some (DPtr sm i) -> built e t (VPtr None)
| bu_ptr t sm i v : nth_error e t = Some (DPtr sm i) -> built e i v -> built e t (VPtr (Some v))
| bu_list t i l : nth_error e t = Some (DList i) -> built_list e i l -> built e t (VList l)
| bu_map t i l : nth_error e t = Some (DMap i) -> built_pairs e (fun _ t' => t' = i) l -> built e t (VMap l)
| bu_obj t fs ini o : nth_error e t = Some (DObj fs ini) -> same_names fs o -> built_pairs e (member_of fs) o -> built e t (VObj o)
with built_list (e : env) : nat -> list val -> Prop :=
| bl_nil i : built_list e i []
| bl_cons i v l : built e i v -> built_list e i l -> built_list e i (v :: l)
with built_pairs (e : env) : (str -> nat -> Prop) -> list (str * val) -> Prop :=
| bp_nil T : built_pairs e T []
| bp_cons (T : str -> nat -> Prop) k t v l : T k t -> built e t v -> built_pairs e T l -> built_pairs e T ((k, v) :: l).

(* value-initialised objects are objects of their type; the fields of a class have
   different names *)
Definition env_built (e : env) : Prop :=
  forall t d, nth_error e t = Some d -> built e t (dval e t) /\
    match d with DObj fs _ => NoDup (map f_key fs) | _ => True end.

(* [sees e m t h v F]: in memory m, the object h of type t stands for the value v when its
   pointers are followed; F lists the objects met on the way, once for every time they
   are met. *)
Inductive sees (e : env) (m : store) : nat -> hval -> val -> list nat -> Prop :=
| se_scalar t d v : nth_error e t = Some d -> scalar d -> sees e m t (HV v) v []
| se_null t sm i : nth_error e t = Some (DPtr sm i) -> sees e m t (HP None) (VPtr None) []
| se_ptr t sm i a h v F : nth_error e t = Some (DPtr sm i) -> nth_error m a = Some h -> sees e m i h v F ->
    sees e m t (HP (Some a)) (VPtr (Some v)) (a :: F)
| se_list t i hs l F : nth_error e t = Some (DList i) -> sees_list e m i hs l F -> sees e m t (HL hs) (VList l) F
| se_map t i hs l F : nth_error e t = Some (DMap i) -> sees_pairs e m (fun _ t' => t' = i) hs l F -> sees e m t (HM hs) (VMap l) F
| se_obj t fs ini hs o F : nth_error e t = Some (DObj fs ini) -> same_names fs o -> sees_pairs e m (member_of fs) hs o F ->
    sees e m t (HO hs) (VObj o) F
with sees_list (e : env) (m : store) : nat -> list hval -> list val -> list nat -> Prop :=
| sl_nil i : sees_list e m i [] [] []
| sl_cons i h v F hs l F' : sees e m i h v F -> sees_list e m i hs l F' -> sees_list e m i (h :: hs) (v :: l) (F ++ F')
with sees_pairs (e : env) (m : store) : (str -> nat -> Prop) -> list (str * hval) -> list (str * val) -> list nat -> Prop :=
| sp_nil T : sees_pairs e m T [] [] []
| sp_cons (T : str -> nat -> Prop) k t h v F hs l F' : T k t -> sees e m t h v F -> sees_pairs e m T hs l F' ->
    sees_pairs e m T ((k, h) :: hs) ((k, v) :: l) (F ++ F').

(* The object at a stands for v, is of type t, and no object below it is met twice (nor
   is a itself met): a tree.  F are the objects below it. *)
Definition tree (e : env) (m : store) (t a : nat) (v : val) (F : list nat) : Prop :=
  exists h, nth_error m a = Some h /\ sees e m t h v F /\ NoDup F /\ ~ In a F.

(* the objects h points to *)
Fixpoint targets (h : hval) : list nat :=
  match h with
  | HV _ => []
  | HP None => []
  | HP (Some a) => [a]
  | HL l => concat (map targets l)
  | HM l | HO l => concat (map (fun kv => targets (snd kv)) l)
  end.
(* a set of objects no pointer leads out of *)
Definition closed (m : store) (A : nat -> Prop) : Prop :=
  forall a h b, A a -> nth_error m a = Some h -> In b (targets h) -> A b.

Scheme built_ind3 := Induction for built Sort Prop
  with built_list_ind3 := Induction for built_list Sort Prop
  with built_pairs_ind3 := Induction for built_pairs Sort Prop.
Combined Scheme built_comb from built_ind3, built_list_ind3, built_pairs_ind3.
Scheme sees_ind3 := Induction for sees Sort Prop
  with sees_list_ind3 := Induction for sees_list Sort Prop
  with sees_pairs_ind3 := Induction for sees_pairs Sort Prop.
Combined Scheme sees_comb from sees_ind3, sees_list_ind3, sees_pairs_ind3.
