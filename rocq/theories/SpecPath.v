(* SpecPath.v - the parts of an object, named by paths, without reference to the code that
   looks for them. *)
From Verif Require Import Base Dec ModelJsonT ModelConfig.

(* a component of a path that is a list index: its decimal digits, leading zeros allowed *)
Definition number (k : str) (n : N) : Prop := k <> [] /\ Forall (fun c => is_digit c = true) k /\ undec k = n /\ (n < 2 ^ 64)%N.

(* no class has two fields of the same name *)
Definition unique_names (e : env) : Prop := forall t fs ini, nth_error e t = Some (DObj fs ini) -> NoDup (map f_key fs).

(* k is the name of a field of a class, of type t *)
Definition field_is (fs : list field) (k : str) (t : nat) : Prop :=
  NoDup (map f_key fs) /\ exists f, In f fs /\ f_key f = k /\ f_type f = t.

(* The part of v (an object of type t) at a path: w, an object of type u.  Pointers are
   followed; a path ends at the pointer itself. *)
Inductive part (e : env) : nat -> val -> path -> nat -> val -> Prop :=
| part_all t v : part e t v [] t v
| part_pointee t sm i x p u w : nth_error e t = Some (DPtr sm i) -> p <> [] -> part e i x p u w -> part e t (VPtr (Some x)) p u w
| part_element t i l k n x p u w : nth_error e t = Some (DList i) -> number k n -> nth_error l (N.to_nat n) = Some x ->
    part e i x p u w -> part e t (VList l) (k :: p) u w
| part_value t i m k x p u w : nth_error e t = Some (DMap i) -> afind k m = Some x -> part e i x p u w -> part e t (VMap m) (k :: p) u w
| part_field t fs ini o k i x p u w : nth_error e t = Some (DObj fs ini) -> field_is fs k i -> afind k o = Some x ->
    part e i x p u w -> part e t (VObj o) (k :: p) u w.

(* Two paths that part at different keys of a map, different fields of a class, or where the
   second goes into an earlier element of a list than the first. *)
Inductive apart (e : env) : nat -> val -> path -> path -> Prop :=
| apart_pointee t sm i x p q : nth_error e t = Some (DPtr sm i) -> apart e i x p q -> apart e t (VPtr (Some x)) p q
| apart_before t i l k1 n1 p k2 n2 q : nth_error e t = Some (DList i) -> number k1 n1 -> number k2 n2 -> (n2 < n1)%N ->
    apart e t (VList l) (k1 :: p) (k2 :: q)
| apart_value t i m k1 p k2 q : nth_error e t = Some (DMap i) -> k1 <> k2 -> apart e t (VMap m) (k1 :: p) (k2 :: q)
| apart_field t fs ini o k1 p k2 q : nth_error e t = Some (DObj fs ini) -> k1 <> k2 -> apart e t (VObj o) (k1 :: p) (k2 :: q)
| apart_in_element t i l k1 k2 n x p q : nth_error e t = Some (DList i) -> number k1 n -> number k2 n ->
    nth_error l (N.to_nat n) = Some x -> apart e i x p q -> apart e t (VList l) (k1 :: p) (k2 :: q)
| apart_in_value t i m k x p q : nth_error e t = Some (DMap i) -> afind k m = Some x -> apart e i x p q ->
    apart e t (VMap m) (k :: p) (k :: q)
| apart_in_field t fs ini o k i x p q : nth_error e t = Some (DObj fs ini) -> field_is fs k i -> afind k o = Some x ->
    apart e i x p q -> apart e t (VObj o) (k :: p) (k :: q).

(* v is an object of type t: no pointer is null, every field of a class is there *)
Inductive whole (e : env) : nat -> val -> Prop :=
| whole_plain t d v : nth_error e t = Some d -> match d with DBool | DInt _ | DFloat _ | DStr | DVoid => True | _ => False end -> whole e t v
| whole_ptr t sm i x : nth_error e t = Some (DPtr sm i) -> whole e i x -> whole e t (VPtr (Some x))
| whole_list t i l : nth_error e t = Some (DList i) -> (forall x, In x l -> whole e i x) -> whole e t (VList l)
| whole_map t i m : nth_error e t = Some (DMap i) -> (forall k x, In (k, x) m -> whole e i x) -> whole e t (VMap m)
| whole_obj t fs ini o : nth_error e t = Some (DObj fs ini) -> NoDup (map f_key fs) ->
    (forall f, In f fs -> exists x, afind (f_key f) o = Some x /\ whole e (f_type f) x) -> whole e t (VObj o).

(* the components a path can have anywhere: those made of digits are numbers below 2^64 *)
Definition sane (p : path) : Prop := forall k, In k p -> Forall (fun c => is_digit c = true) k -> exists n, number k n.

(* no list anywhere in v has more than max elements *)
Fixpoint lists_within (max : N) (v : val) : Prop :=
  match v with
  | VPtr (Some x) => lists_within max x
  | VList l => (N.of_nat (length l) <= max)%N /\ fold_right (fun x P => lists_within max x /\ P) True l
  | VMap m => fold_right (fun kx P => lists_within max (snd kx) /\ P) True m
  | VObj o => fold_right (fun kx P => lists_within max (snd kx) /\ P) True o
  | _ => True
  end.
