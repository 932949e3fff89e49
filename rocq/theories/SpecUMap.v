(* SpecUMap.v - values with unordered maps (C82): equal up to the order of the pairs of
   their maps. *)
From Verif Require Import Base ModelJson ModelJsonW ModelJsonT SpecJson SpecJsonT ModelUMap.

(* no map has two pairs with one key *)
Definition unique_keys : val -> Prop := maps_ok (fun ks => NoDup ks).

(* the same pairs, in whatever order *)
Inductive alike : val -> val -> Prop :=
| al_void : alike VVoid VVoid
| al_bool b : alike (VBool b) (VBool b)
| al_int z : alike (VInt z) (VInt z)
| al_float x : alike (VFloat x) (VFloat x)
| al_str s : alike (VStr s) (VStr s)
| al_null : alike (VPtr None) (VPtr None)
| al_ptr p q : alike p q -> alike (VPtr (Some p)) (VPtr (Some q))
| al_list l l' : alike_items l l' -> alike (VList l) (VList l')
| al_map m m' :
    (forall k, In k (akeys m) <-> In k (akeys m')) ->
    (forall k x y, afind k m = Some x -> afind k m' = Some y -> alike x y) ->
    alike (VMap m) (VMap m')
| al_obj o o' : alike_fields o o' -> alike (VObj o) (VObj o')
with alike_items : list val -> list val -> Prop :=
| ai_nil : alike_items [] []
| ai_cons x y l l' : alike x y -> alike_items l l' -> alike_items (x :: l) (y :: l')
with alike_fields : list (str * val) -> list (str * val) -> Prop :=
| af_nil : alike_fields [] []
| af_cons k x y o o' : alike x y -> alike_fields o o' -> alike_fields ((k, x) :: o) ((k, y) :: o').

Scheme alike_mut := Minimality for alike Sort Prop
  with alike_items_mut := Minimality for alike_items Sort Prop
  with alike_fields_mut := Minimality for alike_fields Sort Prop.
Combined Scheme alike_comb from alike_mut, alike_items_mut, alike_fields_mut.

(* an insertion that the standard allows: afterwards the key has the value, the other
   pairs are what they were, and the order is any *)
Definition lawful (ins : insertion) : Prop := forall r k x m, NoDup (akeys m) ->
  NoDup (akeys (ins r k x m)) /\
  forall k', afind k' (ins r k x m) = if str_eqb k' k then Some x else afind k' m.

(* the objects the constructors of the types make have no doubled keys *)
Definition inits_ok (e : env) : Prop := forall t, unique_keys (dval e t).

(* two runs end the same way, up to the order of maps: the same reader (position, error)
   and like values, or the same failure *)
Definition same_end (x y : outcome (val * reader)) : Prop :=
  match x, y with
  | Ok (v, r), Ok (v', r') => alike v v' /\ unique_keys v /\ unique_keys v' /\ r' = r
  | Ok _, _ | _, Ok _ => False
  | Abort, Abort | Throw, Throw | UB, UB | OutOfFuel, OutOfFuel => True
  | _, _ => False
  end.
