(* SpecCfgJson.v - what a json document says about a configuration, in the order of the
   document and without reference to how it is read. *)
From Verif Require Import Base Dec SpecJson SpecConfigStore ModelConfig ModelConfigStore ModelCfgJson.

Inductive cstatement :=
| Set_ (p : path) (t : atok)          (* the value at p is this *)
| Array_ (p : path) (strings : bool)  (* p is a new list of numbers or of strings *)
| Typed_ (p : path) (ty : str)        (* p is a new object of this type *)
| Link_ (p : path) (target : str)     (* p stands for what target does *)
| Error_.                             (* the document is in error here *)

Definition from (A : Type) (g : nat -> A -> list cstatement) : nat -> list A -> list cstatement :=
  fix go i l := match l with [] => [] | x :: l' => g i x ++ go (S i) l' end.
Arguments from {A}.
Definition item (p : path) (i : nat) : path := p ++ [dec (N.of_nat i)].

(* the value of a link key *)
Fixpoint says_link (p : path) (j : json) : list cstatement :=
  match j with
  | JStr s => [Link_ p s]
  | JArr l => from (fun i x => says_link (item p i) x) 0 l
  | _ => [Error_]
  end.

(* the value at a path; a key is (#)name(!type), its name a path, a type only at the root *)
Fixpoint says (p : path) (j : json) : list cstatement :=
  match j with
  | JNull => []
  | JBool b => [Set_ p (ABool b)]
  | JInt z => [Set_ p (AInt z)]
  | JFloat x => [Set_ p (AFloat x)]
  | JStr s => [Set_ p (AStr s)]
  | JArr l =>
    match p, l with
    | [_], (JInt _ | JFloat _) :: _ => [Array_ p false]
    | [_], JStr _ :: _ => [Array_ p true]
    | [_], _ :: _ => [Error_]
    | _, _ => []
    end ++ from (fun i x => says (item p i) x) 0 l
  | JObj l =>
    flat_map (fun kx : str * json => let (k, x) := kx in
      match parse_key k with
      | Ok (link, name, ty) =>
        match path_join p name 46%N with
        | Ok sub =>
          match ty, p with [], _ => [] | _, [] => [Typed_ sub ty] | _, _ => [Error_] end ++
          (if link : bool then says_link sub x else says sub x)
        | _ => [Error_]
        end
      | _ => [Error_]
      end) l
  end.

(* the calls of set() and link() that a statement stands for *)
Local Open Scope outcome_scope.
Section Obey.
  Context {V M : Type} (L : layer V M) (mk : maker V M) (f : nat).
  Definition set_to (c : cfg V M) (p : path) (vm : V * M) : outcome (cfg V M) := cset L f (Cfg (ckeys c) (clinks c) (snd vm)) p (fst vm).
  Definition obey (c : cfg V M) (s : cstatement) : outcome (cfg V M) :=
    match s with
    | Set_ p t => set_to c p (mscalar mk t (cmem c))
    | Array_ p b => set_to c p (marray mk b (cmem c))
    | Typed_ p ty => do vm <- mtype mk ty (cmem c); set_to c p vm
    | Link_ p s => do t <- path_of s dot; clink L f c p t
    | Error_ => Abort
    end.
  Fixpoint obeys (c : cfg V M) (l : list cstatement) : outcome (cfg V M) :=
    match l with [] => Ok c | s :: l' => do c1 <- obey c s; obeys c1 l' end.
End Obey.

Definition plain_name (k : str) : Prop := k <> [] /\ ~ In 33%N k /\ ~ In 46%N k /\ forall s, k <> 35%N :: s.   (* no ! and ., no # in front *)
Definition is_number (j : json) : Prop := match j with JInt _ | JFloat _ => True | _ => False end.
Definition is_string (j : json) : Prop := match j with JStr _ => True | _ => False end.
Definition plain_value (max : N) (j : json) : Prop :=
  match j with
  | JBool _ | JInt _ | JFloat _ | JStr _ => True
  | JArr l => l <> [] /\ (N.of_nat (length l) <= max)%N /\ (Forall is_number l \/ Forall is_string l)
  | _ => False
  end.
(* the object a plain value becomes: numbers are doubles *)
From Verif Require Import ModelJsonT ModelJsonW ModelPath SpecPath.
Fixpoint value_of (j : json) : val :=
  match j with
  | JBool b => VBool b
  | JInt z => VFloat (show_int z)
  | JFloat x => VFloat x
  | JStr s => VStr s
  | JArr l => VList (map value_of l)
  | _ => VBool false
  end.
Definition kind_of (K : kinds) (j : json) : nat :=
  match j with
  | JInt _ | JFloat _ => kfloat K
  | JStr _ => kstr K
  | JArr (JStr _ :: _) => kstrs K
  | JArr _ => kfloats K
  | _ => kbool K
  end.

(* Writing to the component k of v, an object of type t: it is x, of type u, before, and v is v'
   once it is x'.  Pointers are followed; a list is cut off after its component, or made
   longer with default elements; a key that is not in a map is made, with the default value. *)
Inductive opens (max : N) (e : env) : nat -> val -> str -> nat -> val -> val -> val -> Prop :=
| open_pointee t sm i v k u x x' v' : nth_error e t = Some (DPtr sm i) -> opens max e i v k u x x' v' ->
    opens max e t (VPtr (Some v)) k u x x' (VPtr (Some v'))
| open_element t i l k n x' : nth_error e t = Some (DList i) -> number k n -> (n < max)%N -> let n := N.to_nat n in
    opens max e t (VList l) k i (nth n l (dval e i)) x' (VList (firstn n l ++ repeat (dval e i) (n - length l) ++ [x']))
| open_value t i m k x' : nth_error e t = Some (DMap i) ->
    opens max e t (VMap m) k i (match afind k m with Some x => x | None => dval e i end) x' (VMap (map_set k x' m))
| open_field t fs ini o k i x x' : nth_error e t = Some (DObj fs ini) -> field_is fs k i -> afind k o = Some x ->
    opens max e t (VObj o) k i x x' (VObj (aset k x' o)).

(* What a document makes of an object w of type u: nothing (None), or another one.  null
   means nothing; an object means what its values make of the components it names, one after
   the other; an array is an object whose names are the indices. *)
Definition numbered (xs : list json) : list (str * json) := combine (map (fun i => dec (N.of_nat i)) (seq 0 (length xs))) xs.
Inductive fills (max : N) (e : env) (K : kinds) : nat -> val -> json -> option val -> Prop :=
| fill_null u w : fills max e K u w JNull None
| fill_scalar w j : match j with JBool _ | JInt _ | JFloat _ | JStr _ => True | _ => False end -> fills max e K (kind_of K j) w j (Some (value_of j))
| fill_object u w l r : Forall plain_name (map fst l) -> fields max e K u w l r -> fills max e K u w (JObj l) r
| fill_array u w xs r : fields max e K u w (numbered xs) r -> fills max e K u w (JArr xs) r
with fields (max : N) (e : env) (K : kinds) : nat -> val -> list (str * json) -> option val -> Prop :=
| fields_nil u w : fields max e K u w [] None
| fields_skip u w k j l i x x' w1 r : opens max e u w k i x x' w1 -> fills max e K i x j None -> fields max e K u w l r ->
    fields max e K u w ((k, j) :: l) r
| fields_set u w k j l i x x' w1 r : opens max e u w k i x x' w1 -> fills max e K i x j (Some x') -> fields max e K u w1 l r ->
    fields max e K u w ((k, j) :: l) (Some (match r with Some w2 => w2 | None => w1 end)).

(* names for plain values and lists, for objects of a type, and other names for names *)
Inductive entry := Name (k : str) (j : json) | Object (k ty : str) (l : list (str * json)) | Alias (k target : str).
Definition entry_name (x : entry) : str := match x with Name k _ | Object k _ _ | Alias k _ => k end.
Definition entry_field (x : entry) : str * json :=
  match x with Name k j => (k, j) | Object k ty l => (k ++ 33%N :: ty, JObj l) | Alias k t => (35%N :: k, JStr t) end.
(* what a name stands for: the type and value of an object *)
Inductive stands (max : N) (e : env) (K : kinds) (known : str -> option (nat * val)) (l : list entry) : str -> nat * val -> Prop :=
| stands_name k j : In (Name k j) l -> stands max e K known l k (kind_of K j, value_of j)
| stands_object k ty fl t v w : In (Object k ty fl) l -> known ty = Some (t, v) -> fills max e K t v (JObj fl) w ->
    stands max e K known l k (t, match w with Some w => w | None => v end)
| stands_alias k t x : In (Alias k t) l -> stands max e K known l t x -> stands max e K known l k x.
Definition plain_entry (max : N) (e : env) (K : kinds) (known : str -> option (nat * val)) (x : entry) : Prop :=
  match x with
  | Name k j => plain_name k /\ plain_value max j
  | Object k ty l => plain_name k /\ ty <> [] /\ exists t v w, known ty = Some (t, v) /\ fills max e K t v (JObj l) w
  | Alias k t => k <> [] /\ ~ In 33%N k /\ ~ In 46%N k /\ t <> [] /\ ~ In 46%N t
  end.
