(* SpecCont.v - what the reflected members of a container should do, on plain
   lists and finite maps (C65, C66).  Refers to ModelCont only for the memory the
   objects live in. *)
From Coq Require String.
Import String.StringSyntax.
From Coq Require Import Sorted Permutation.
From Verif Require Import Base ModelCore SpecCore ModelValue SpecValue ModelPlumb SpecPlumb ModelCont.

(* the object o is a std::vector holding l *)
Definition contents (m : mem) (o : nat) (l : list N) : Prop := exists buf, m o = DVec buf /\ m buf = DBuf l.
(* no object at or past next exists yet *)
Definition unborn (m : mem) (next : nat) : Prop := forall o, next <= o -> m o = DNone.
(* x designates an object of type X that holds p *)
Definition holds (m : mem) (x : value) (X : tptr) (p : N) : Prop := v_type x = X /\ read m (v_addr x) = Some p.

Inductive vecop := OSize | OClear | OResize (n : N) | OPush (p : N) | OIndex (i : N) | OAt (i : N).
Inductive vecres := NoResult | Number (n : N) | Element (i : nat) (writable : bool).

Definition vecop_name (o : vecop) : str :=
  match o with
  | OSize => lit "size" | OClear => lit "clear" | OResize _ => lit "resize" | OPush _ => lit "push_back"
  | OIndex _ => lit "operator[]" | OAt _ => lit "at"
  end.
(* the values of the arguments, with their types: a size_t or an element *)
Definition vecop_args (V Z : tptr) (o : vecop) : list (tptr * N) :=
  match o with
  | OSize | OClear => []
  | OResize n => [(Z, n)] | OIndex i => [(Z, i)] | OAt i => [(Z, i)]
  | OPush p => [(V, p)]
  end.
Definition vecop_mutates (o : vecop) : bool :=
  match o with OSize | OAt _ => false | _ => true end.

(* a list of length n that keeps what l has and is d beyond *)
Definition padded (d : N) (l : list N) (n : nat) (l' : list N) : Prop :=
  length l' = n /\ forall i, i < n -> nth_error l' i = Some (nth i l d).

(* what the operation does to a vector holding l: the new contents and the result.
   operator[] and at on an index out of bounds do nothing listed here. *)
Inductive VecDoes (d : N) (l : list N) : vecop -> list N -> vecres -> Prop :=
| D_size : VecDoes d l OSize l (Number (N.of_nat (length l)))
| D_clear : VecDoes d l OClear [] NoResult
| D_resize n l' : padded d l (N.to_nat n) l' -> VecDoes d l (OResize n) l' NoResult
| D_push p : VecDoes d l (OPush p) (l ++ [p]) NoResult
| D_index i : N.to_nat i < length l -> VecDoes d l (OIndex i) l (Element (N.to_nat i) true)
| D_at i : N.to_nat i < length l -> VecDoes d l (OAt i) l (Element (N.to_nat i) false).

(* w owns an object of type Z that holds n *)
Definition owns_number (Z : tptr) (m : mem) (w : value) (n : N) : Prop :=
  v_arg w = Arg Z LValue false /\ v_stored w = true /\ snd (v_addr w) = 0%N /\ m (fst (v_addr w)) = DData n.

(* w, in memory m, is the result r of a call on the vector o of elements V *)
Definition is_result (H : heap) (V Z : tptr) (m : mem) (o : nat) (l : list N) (w : value) (r : vecres) : Prop :=
  match r with
  | NoResult => v_type w = h_void H
  | Number n => owns_number Z m w n
  | Element i writable =>
      v_arg w = Arg V LValue (negb writable) /\ v_stored w = false /\
      read m (v_addr w) = nth_error l i /\ i < length l /\
      (* and it is that element: writing through it changes it and nothing else *)
      forall p, exists l', contents (write m (v_addr w) p) o l' /\ length l' = length l /\
        nth_error l' i = Some p /\ forall j, j <> i -> nth_error l' j = nth_error l j
  end.

(* T is a std::vector<V> as its reflection leaves it; its callables are numbered
   from the base of K *)
Record vector_type (E : cpp) (H : heap) (K : cont) (T V Z : tptr) (id : str) : Prop := {
  vt_wf : wf_heap H;
  vt_id : exists vid, id = lit "std::vector<" ++ vid ++ lit ">";
  vt_carries : carries H T id (stdVector id T V Z (h_void H) (Caps true true true true true) (k_base K));
  vt_apart : h_value H <> h_void H /\ T <> h_void H /\ T <> h_value H /\ V <> h_void H /\ V <> h_value H;
  vt_valid : valid H V /\ valid H Z /\ valid H (h_void H);
  vt_elem : ~ has_user_conversion H V V;
  vt_index : plumbed E H Z Z;
  vt_copies : cpp_copyable E T = true /\ cpp_movable E T = true }.

(* the handle designates the vector o and may be written through *)
Definition mutable_handle (T : tptr) (o : nat) (v : value) : Prop :=
  v_arg v = Arg T LValue false /\ fst (v_addr v) = o.
Definition handle_to (T : tptr) (o : nat) (v : value) : Prop :=
  v_type v = T /\ fst (v_addr v) = o.
(* a handle that gives its value away *)
Definition gives (x : value) : Prop := a_ref (v_arg x) = RValue /\ a_const (v_arg x) = false.

(* two vectors that share nothing *)
Definition separate (m : mem) (o1 o2 : nat) : Prop := o1 <> o2 /\ forall buf, m o1 = DVec buf -> m o2 <> DVec buf.
(* w owns a new vector holding l *)
Definition new_vector (T : tptr) (m m' : mem) (w : value) (l : list N) : Prop :=
  v_arg w = Arg T LValue false /\ v_stored w = true /\ m (fst (v_addr w)) = DNone /\ contents m' (fst (v_addr w)) l.

(* operations one after another *)
Inductive VecRuns (d : N) : list N -> list vecop -> list N -> list vecres -> Prop :=
| VR_nil l : VecRuns d l [] l []
| VR_cons l op l1 r ops l' rs : VecDoes d l op l1 r -> VecRuns d l1 ops l' rs -> VecRuns d l (op :: ops) l' (r :: rs).
(* a result looked at later: sizes are objects of their own, element references may have gone *)
Definition still_result (H : heap) (Z : tptr) (m : mem) (w : value) (r : vecres) : Prop :=
  match r with
  | NoResult => v_type w = h_void H
  | Number n => owns_number Z m w n
  | Element _ _ => True
  end.
(* x is neither the vector o nor inside it *)
Definition outside (m : mem) (o : nat) (x : value) : Prop := fst (v_addr x) <> o /\ m o <> DVec (fst (v_addr x)).

(* ----- maps (C66) ----- *)
(* the object o is a map holding the pairs l, in iteration order; each value lives
   in an object of its own; std::map iterates in key order *)
Definition is_map (ordered : bool) (m : mem) (o : nat) (l : list (N * N)) : Prop :=
  exists ks, m o = DMap ks /\ Forall2 (fun kn kp => fst kn = fst kp /\ m (snd kn) = DData (snd kp)) ks l /\
    NoDup (map fst l) /\ NoDup (map snd ks) /\ (ordered = true -> StronglySorted N.lt (map fst l)).

Inductive mapop := MSize | MCount (k : N) | MIndex (k : N) | MAt (k : N) | MKeys.
Inductive mapres := MNumber (n : N) | MElement (k : N) (writable : bool) | MKeyList (ks : list N).
Definition mapop_name (o : mapop) : str :=
  match o with
  | MSize => lit "size" | MCount _ => lit "count" | MIndex _ => lit "operator[]" | MAt _ => lit "at" | MKeys => lit "keys"
  end.
Definition mapop_args (o : mapop) : list N :=
  match o with MSize | MKeys => [] | MCount k => [k] | MIndex k => [k] | MAt k => [k] end.
Definition mapop_mutates (o : mapop) : bool := match o with MIndex _ => true | _ => false end.

(* what the operation does to a map of the pairs l; at on a missing key does nothing
   listed here *)
Inductive MapDoes (ordered : bool) (d : N) (l : list (N * N)) : mapop -> list (N * N) -> mapres -> Prop :=
| M_size : MapDoes ordered d l MSize l (MNumber (N.of_nat (length l)))
| M_count_in k p : In (k, p) l -> MapDoes ordered d l (MCount k) l (MNumber 1)
| M_count_out k : ~ In k (map fst l) -> MapDoes ordered d l (MCount k) l (MNumber 0)
| M_index_in k p : In (k, p) l -> MapDoes ordered d l (MIndex k) l (MElement k true)
| M_index_out k l' : ~ In k (map fst l) -> Permutation l' ((k, d) :: l) ->
    (ordered = true -> StronglySorted N.lt (map fst l')) -> MapDoes ordered d l (MIndex k) l' (MElement k true)
| M_at k p : In (k, p) l -> MapDoes ordered d l (MAt k) l (MElement k false)
| M_keys : MapDoes ordered d l MKeys l (MKeyList (map fst l)).

(* a is where the map o keeps the value of key k *)
Definition refers (m : mem) (o : nat) (k : N) (a : addr) : Prop :=
  exists ks, m o = DMap ks /\ In (k, fst a) ks /\ snd a = 0%N.

Definition is_mapres (ordered : bool) (V Z KV : tptr) (m m' : mem) (o : nat) (l' : list (N * N)) (w : value) (r : mapres) : Prop :=
  match r with
  | MNumber n => owns_number Z m' w n
  | MKeyList ks => new_vector KV m m' w ks
  | MElement k writable =>
      v_arg w = Arg V LValue (negb writable) /\ v_stored w = false /\ refers m' o k (v_addr w) /\
      (forall p, In (k, p) l' -> read m' (v_addr w) = Some p) /\ In k (map fst l') /\
      (* and it is that value: writing through it changes it and nothing else *)
      forall p, exists l2, is_map ordered (write m' (v_addr w) p) o l2 /\ map fst l2 = map fst l' /\ In (k, p) l2 /\
        forall k' p', k' <> k -> (In (k', p') l2 <-> In (k', p') l')
  end.

(* T is a std::map or std::unordered_map from X to V as its reflection leaves it *)
Record map_type (E : cpp) (H : heap) (K : cont) (T X V KV Z : tptr) (id : str) : Prop := {
  mt_wf : wf_heap H;
  mt_id : exists kid vid, id = lit "std::map<" ++ kid ++ lit "," ++ vid ++ lit ">" \/
                          id = lit "std::unordered_map<" ++ kid ++ lit "," ++ vid ++ lit ">";
  mt_carries : carries H T id (stdMap id T X V KV Z (Caps true true true true true) (k_base K));
  mt_apart : h_value H <> h_void H /\ Forall (fun U => U <> h_void H /\ U <> h_value H) [T; X; V; KV; Z];
  mt_valid : Forall (valid H) [X; V; KV; Z];
  mt_key : ~ has_user_conversion H X X;
  mt_copies : cpp_copyable E Z = true /\ cpp_copyable E KV = true }.

(* operations one after another *)
Inductive MapRuns (ordered : bool) (d : N) : list (N * N) -> list mapop -> list (N * N) -> list mapres -> Prop :=
| MR_nil l : MapRuns ordered d l [] l []
| MR_cons l op l1 r ops l' rs : MapDoes ordered d l op l1 r -> MapRuns ordered d l1 ops l' rs ->
    MapRuns ordered d l (op :: ops) l' (r :: rs).
(* no at in the list asks for a key that is neither in l nor asked for by operator[] before *)
Fixpoint keys_known (l : list N) (ops : list mapop) : Prop :=
  match ops with
  | [] => True
  | MAt k :: ops' => In k l /\ keys_known l ops'
  | MIndex k :: ops' => keys_known (k :: l) ops'
  | _ :: ops' => keys_known l ops'
  end.
(* a result looked at later: a reference to a value stays one *)
Definition still_mapres (V Z KV : tptr) (m' : mem) (o : nat) (l' : list (N * N)) (w : value) (r : mapres) : Prop :=
  match r with
  | MNumber n => owns_number Z m' w n
  | MKeyList ks => v_arg w = Arg KV LValue false /\ v_stored w = true /\ contents m' (fst (v_addr w)) ks
  | MElement k writable => v_arg w = Arg V LValue (negb writable) /\ v_stored w = false /\ refers m' o k (v_addr w) /\
      forall p, In (k, p) l' -> read m' (v_addr w) = Some p
  end.
