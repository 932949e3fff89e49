(* SpecJsonT.v - what the typed JSON properties (C39-C41, C49) talk about: which value
   of which reflected type a document denotes when read into a given target, and
   which document a value is printed as.  Only the data types of the model (jtype,
   field, val) and the value-initialised object dval are used, none of its functions. *)
From Coq Require String. Import String.StringSyntax.
From Verif Require Import Base ModelJson ModelJsonW ModelJsonT SpecJson.

(* A number text a double can be read from: after an optional minus a digit, or a dot and
   a digit. *)
Definition float_read (x : str) : Prop :=
  exists sg d m, (sg = [] \/ sg = [45%N]) /\ digit_char d /\ (x = sg ++ d :: m \/ x = sg ++ 46%N :: d :: m).

(* ---- well formed documents: what a text can denote ---- *)
Inductive json_ok : json -> Prop :=
| jo_null : json_ok JNull
| jo_bool b : json_ok (JBool b)
| jo_int z : int64 z -> json_ok (JInt z)
| jo_float x : float_read x -> json_ok (JFloat x)
| jo_str s : json_ok (JStr s)
| jo_arr l : (forall j, In j l -> json_ok j) -> json_ok (JArr l)
| jo_obj l : (forall k j, In (k, j) l -> json_ok j) -> json_ok (JObj l).

Definition is_number (j : json) : Prop := match j with JInt _ | JFloat _ => True | _ => False end.

(* the token of a number *)
Definition ntok (j : json) : atok := match j with JInt z => AInt z | JFloat x => AFloat x | _ => ANull end.
(* A whole text of a document: the document, then blanks; a number may also be the
   very end of the text. *)
Inductive whole_text (d : dialect) (j : json) : str -> str -> Prop :=
| wt_more s rest : json_text d j s rest -> whole_text d j s rest
| wt_num w x : is_number j -> blank d w -> tok_text d (ntok j) x -> whole_text d j (w ++ x) [].

(* ---- reading without a type: the first occurrence of a key counts ---- *)
Fixpoint firsts {V : Type} (seen : list str) (l : list (str * V)) : list (str * V) :=
  match l with
  | [] => []
  | (k, x) :: l' => if smem k seen then firsts seen l' else (k, x) :: firsts (k :: seen) l'
  end.

Fixpoint dyn_value (j : json) : val :=
  match j with
  | JNull => VVoid
  | JBool b => VBool b
  | JInt z => VInt z
  | JFloat x => VFloat x
  | JStr s => VStr s
  | JArr l => VList (map dyn_value l)
  | JObj l => VMap (firsts [] (map (fun kv => (fst kv, dyn_value (snd kv))) l))
  end.

(* ---- maps: sorted by key, without duplicates ---- *)
Fixpoint sorted (l : list str) : Prop :=
  match l with
  | [] => True
  | a :: l' => (forall b, In b l' -> str_ltb a b = true) /\ sorted l'
  end.

(* the last occurrence of a key *)
Fixpoint last_of {V : Type} (k : str) (l : list (str * V)) : option V :=
  match l with
  | [] => None
  | (k', x) :: l' =>
    match last_of k l' with
    | Some y => Some y
    | None => if str_eqb k k' then Some x else None
    end
  end.

(* m' is m updated by the pairs l, in order. *)
Definition updated (m : list (str * val)) (l : list (str * val)) (m' : list (str * val)) : Prop :=
  sorted (akeys m') /\
  forall k, afind k m' = match last_of k l with Some x => Some x | None => afind k m end.

(* null where a raw pointer is expected *)
Definition raw_null (e : env) (t : nat) (j : json) : Prop := j = JNull /\ exists i, nth_error e t = Some (DPtr false i).

(* the name of a field in the text: its alias if it has one *)
Definition json_name (f : field) : str := match f_alias f with [] => f_key f | a => a end.

(* ---- [reads e t v j v']: reading document j into an object of type t whose state is
   v leaves it in state v'. ---- *)
Inductive reads (e : env) : nat -> val -> json -> val -> Prop :=
| rd_bool t v b : nth_error e t = Some DBool -> reads e t v (JBool b) (VBool b)
| rd_int t v z : nth_error e t = Some (DInt true) -> int64 z -> reads e t v (JInt z) (VInt z)
| rd_float t v x : nth_error e t = Some (DFloat true) -> float_read x -> reads e t v (JFloat x) (VFloat x)
| rd_str t v s : nth_error e t = Some DStr -> reads e t v (JStr s) (VStr s)
(* null resets a smart pointer and leaves a raw pointer as it is *)
| rd_null t i v : nth_error e t = Some (DPtr true i) -> reads e t v JNull (VPtr None)
| rd_raw_null t i v : nth_error e t = Some (DPtr false i) -> reads e t v JNull v
(* a non null document goes to the object pointed at, allocated if there is none *)
| rd_ptr t sm i p j p' : nth_error e t = Some (DPtr sm i) -> j <> JNull ->
    reads e i (match p with Some x => x | None => dval e i end) j p' ->
    reads e t (VPtr p) j (VPtr (Some p'))
(* null leaves containers and objects as they are *)
| rd_list_null t i l : nth_error e t = Some (DList i) -> reads e t (VList l) JNull (VList l)
| rd_map_null t i m : nth_error e t = Some (DMap i) -> reads e t (VMap m) JNull (VMap m)
| rd_obj_null t fs ini o : nth_error e t = Some (DObj fs ini) -> reads e t (VObj o) JNull (VObj o)
| rd_list t i l js xs : nth_error e t = Some (DList i) -> reads_items e i js xs ->
    reads e t (VList l) (JArr js) (VList (l ++ xs))
| rd_map t i m kjs kxs m' : nth_error e t = Some (DMap i) -> sorted (akeys m) ->
    reads_pairs e i kjs kxs -> updated m kxs m' ->
    reads e t (VMap m) (JObj kjs) (VMap m')
| rd_obj t fs ini o kjs o' : nth_error e t = Some (DObj fs ini) ->
    reads_members e fs o kjs o' ->
    reads e t (VObj o) (JObj kjs) (VObj o')
| rd_dyn_null t v : nth_error e t = Some DVoid -> reads e t v JNull v
| rd_dyn t v j : nth_error e t = Some DVoid -> json_ok j -> j <> JNull -> reads e t v j (dyn_value j)
(* elements of a list: each read into a fresh object; null is no element of a list of raw
   pointers *)
with reads_items (e : env) : nat -> list json -> list val -> Prop :=
| ri_nil i : reads_items e i [] []
| ri_cons i j js x xs : ~ raw_null e i j -> reads e i (dval e i) j x -> reads_items e i js xs ->
    reads_items e i (j :: js) (x :: xs)
with reads_pairs (e : env) : nat -> list (str * json) -> list (str * val) -> Prop :=
| rp_nil i : reads_pairs e i [] []
| rp_cons i k j kjs x kxs : ~ raw_null e i j -> reads e i (dval e i) j x -> reads_pairs e i kjs kxs ->
    reads_pairs e i ((k, j) :: kjs) ((k, x) :: kxs)
(* members of an object, in order: the field with that name, or nothing *)
with reads_members (e : env) : list field -> list (str * val) -> list (str * json) -> list (str * val) -> Prop :=
| rm_nil fs o : reads_members e fs o [] o
| rm_unknown fs o a j kjs o' :
    (forall f, In f fs -> f_skip f = false -> json_name f <> a) ->
    reads_members e fs o kjs o' -> reads_members e fs o ((a, j) :: kjs) o'
| rm_known fs o f j x cur kjs o' :
    In f fs -> f_skip f = false ->
    (forall g, In g fs -> f_skip g = false -> json_name g = json_name f -> g = f) ->
    afind (f_key f) o = Some cur -> reads e (f_type f) cur j x ->
    reads_members e fs (aset (f_key f) x o) kjs o' ->
    reads_members e fs o ((json_name f, j) :: kjs) o'.

Scheme reads_mut := Minimality for reads Sort Prop
  with reads_items_mut := Minimality for reads_items Sort Prop
  with reads_pairs_mut := Minimality for reads_pairs Sort Prop
  with reads_members_mut := Minimality for reads_members Sort Prop.
Combined Scheme reads_comb from reads_mut, reads_items_mut, reads_pairs_mut, reads_members_mut.

(* ---- [typed e t v]: v is a state of an object of type t, all integers being int64_t
   and all floats double; the keys of a map are listed in its iteration order ---- *)
Inductive typed (e : env) : nat -> val -> Prop :=
| ty_bool t b : nth_error e t = Some DBool -> typed e t (VBool b)
| ty_int t z : nth_error e t = Some (DInt true) -> int64 z -> typed e t (VInt z)
| ty_float t x : nth_error e t = Some (DFloat true) -> float_text x -> typed e t (VFloat x)
| ty_str t s : nth_error e t = Some DStr -> typed e t (VStr s)
| ty_null t sm i : nth_error e t = Some (DPtr sm i) -> typed e t (VPtr None)
| ty_ptr t sm i p : nth_error e t = Some (DPtr sm i) -> typed e i p -> typed e t (VPtr (Some p))
| ty_list t i l : nth_error e t = Some (DList i) -> (forall x, In x l -> typed e i x) -> typed e t (VList l)
| ty_map t i m : nth_error e t = Some (DMap i) -> NoDup (akeys m) ->
    (forall k x, In (k, x) m -> typed e i x) -> typed e t (VMap m)
| ty_obj t fs ini o : nth_error e t = Some (DObj fs ini) -> NoDup (map f_key fs) -> akeys o = map f_key fs ->
    (forall f x, In f fs -> afind (f_key f) o = Some x -> typed e (f_type f) x) ->
    typed e t (VObj o).

(* ---- emptiness, as used by skipEmpty and compact printing ---- *)
(* the text of a number that is zero: no digit but 0 before the exponent *)
Definition zero_text (x : str) : Prop :=
  forall m c r, x = m ++ c :: r -> (forall b, In b m -> b <> 101%N /\ b <> 69%N) -> digit_char c -> c = 48%N.
Inductive empty_val : val -> Prop :=
| ev_int : empty_val (VInt 0)
| ev_float x : zero_text x -> empty_val (VFloat x)
| ev_str : empty_val (VStr [])
| ev_null : empty_val (VPtr None)
| ev_ptr p : empty_val p -> empty_val (VPtr (Some p))
| ev_list : empty_val (VList [])
| ev_map : empty_val (VMap []).

(* a field that is not printed *)
Definition omitted (compact : bool) (f : field) (x : val) : Prop :=
  f_skip f = true \/ ((compact = true \/ f_skipempty f = true) /\ empty_val x).

(* ---- [shows e compact t v j]: an object of type t in state v is printed as the
   document j ---- *)
Inductive shows (e : env) (compact : bool) : nat -> val -> json -> Prop :=
| sh_bool t b : nth_error e t = Some DBool -> shows e compact t (VBool b) (JBool b)
| sh_int t z : nth_error e t = Some (DInt true) -> shows e compact t (VInt z) (JInt z)
| sh_float t x : nth_error e t = Some (DFloat true) -> float_text x -> shows e compact t (VFloat x) (JFloat x)
| sh_str t s : nth_error e t = Some DStr -> shows e compact t (VStr s) (JStr s)
| sh_null t sm i : nth_error e t = Some (DPtr sm i) -> shows e compact t (VPtr None) JNull
| sh_ptr t sm i p j : nth_error e t = Some (DPtr sm i) -> shows e compact i p j ->
    shows e compact t (VPtr (Some p)) j
| sh_list t i l js : nth_error e t = Some (DList i) -> shows_items e compact i l js ->
    shows e compact t (VList l) (JArr js)
| sh_map t i m kjs : nth_error e t = Some (DMap i) -> NoDup (akeys m) -> shows_pairs e compact i m kjs ->
    shows e compact t (VMap m) (JObj kjs)
(* the fields that are not omitted, sorted by name, each under its name *)
| sh_obj t fs ini o sel kjs : nth_error e t = Some (DObj fs ini) ->
    sorted (map json_name sel) ->
    (forall f, In f fs -> exists x, afind (f_key f) o = Some x) ->
    (forall f x, In f fs -> afind (f_key f) o = Some x -> (In f sel <-> ~ omitted compact f x)) ->
    (forall f, In f sel -> In f fs) ->
    shows_members e compact o sel kjs ->
    shows e compact t (VObj o) (JObj kjs)
with shows_items (e : env) (compact : bool) : nat -> list val -> list json -> Prop :=
| si_nil i : shows_items e compact i [] []
| si_cons i x l j js : shows e compact i x j -> shows_items e compact i l js ->
    shows_items e compact i (x :: l) (j :: js)
with shows_pairs (e : env) (compact : bool) : nat -> list (str * val) -> list (str * json) -> Prop :=
| sp_nil i : shows_pairs e compact i [] []
| sp_cons i k x m j kjs : shows e compact i x j -> shows_pairs e compact i m kjs ->
    shows_pairs e compact i ((k, x) :: m) ((k, j) :: kjs)
with shows_members (e : env) (compact : bool) : list (str * val) -> list field -> list (str * json) -> Prop :=
| sm_nil o : shows_members e compact o [] []
| sm_cons o f x sel j kjs : afind (f_key f) o = Some x -> shows e compact (f_type f) x j ->
    shows_members e compact o sel kjs ->
    shows_members e compact o (f :: sel) ((json_name f, j) :: kjs).

Scheme shows_mut := Minimality for shows Sort Prop
  with shows_items_mut := Minimality for shows_items Sort Prop
  with shows_pairs_mut := Minimality for shows_pairs Sort Prop
  with shows_members_mut := Minimality for shows_members Sort Prop.
Combined Scheme shows_comb from shows_mut, shows_items_mut, shows_pairs_mut, shows_members_mut.

(* ---- type environments: every type mentioned exists, no two printed fields of a
   class share a name ---- *)
Definition refs (d : jtype) : list nat :=
  match d with
  | DPtr _ i | DMap i | DList i => [i]
  | DObj fs _ => map f_type (filter (fun f => negb (f_skip f)) fs)
  | _ => []
  end.
Definition names_distinct (d : jtype) : Prop :=
  match d with
  | DObj fs _ => NoDup (map json_name (filter (fun f => negb (f_skip f)) fs))
  | _ => True
  end.
Definition env_ok (e : env) : Prop :=
  forall t d, nth_error e t = Some d -> names_distinct d /\ forall i, In i (refs d) -> i < length e.

(* ---- strings a writer with options wo prints without error and a reader of dialect
   d reads back ---- *)
Definition str_ok (wo : wopts) (d : dialect) (s : str) : Prop :=
  if w_escape wo then utf8_text (fun cp => (cp < 0x10000)%N) s /\ d_unescape d = true
  else if w_validate wo then utf8_text (fun _ => True) s
  else byte_string s /\ d_validate d = false.

(* every string and key of a document *)
Inductive strings_ok (P : str -> Prop) : json -> Prop :=
| so_null : strings_ok P JNull
| so_bool b : strings_ok P (JBool b)
| so_int z : strings_ok P (JInt z)
| so_float x : strings_ok P (JFloat x)
| so_str s : P s -> strings_ok P (JStr s)
| so_arr l : (forall j, In j l -> strings_ok P j) -> strings_ok P (JArr l)
| so_obj l : (forall k j, In (k, j) l -> P k /\ strings_ok P j) -> strings_ok P (JObj l).

(* nesting depth of containers *)
Fixpoint depth (j : json) : nat :=
  match j with
  | JArr l => S (fold_right (fun x n => Nat.max (depth x) n) 0 l)
  | JObj l => S (fold_right (fun kv n => Nat.max (depth (snd kv)) n) 0 l)
  | _ => 0
  end.

(* ---- round trips ---- *)

(* [restores e compact t v0 v]: nothing printing v (an object of type t) leaves out is
   lost when the text is read into an object in state v0. *)
Inductive restores (e : env) (compact : bool) : nat -> val -> val -> Prop :=
| rs_bool t v0 b : nth_error e t = Some DBool -> restores e compact t v0 (VBool b)
| rs_int t v0 z : nth_error e t = Some (DInt true) -> restores e compact t v0 (VInt z)
| rs_float t v0 x : nth_error e t = Some (DFloat true) -> restores e compact t v0 (VFloat x)
| rs_str t v0 s : nth_error e t = Some DStr -> restores e compact t v0 (VStr s)
(* only a smart pointer is reset by null *)
| rs_null t i v0 : nth_error e t = Some (DPtr true i) -> restores e compact t v0 (VPtr None)
(* a pointer to a null pointer is printed as null too *)
| rs_ptr t sm i p0 p : nth_error e t = Some (DPtr sm i) -> p <> VPtr None ->
    restores e compact i (match p0 with Some x => x | None => dval e i end) p ->
    restores e compact t (VPtr p0) (VPtr (Some p))
| rs_list t i l : nth_error e t = Some (DList i) ->
    (forall x, In x l -> restores e compact i (dval e i) x) ->
    restores e compact t (VList []) (VList l)
| rs_map t i m0 m : nth_error e t = Some (DMap i) -> sorted (akeys m0) -> sorted (akeys m) ->
    (forall k, In k (akeys m0) -> In k (akeys m)) ->
    (forall k x, In (k, x) m -> restores e compact i (dval e i) x) ->
    restores e compact t (VMap m0) (VMap m)
| rs_obj t fs ini o0 o : nth_error e t = Some (DObj fs ini) -> akeys o0 = akeys o ->
    (forall f x x0, In f fs -> afind (f_key f) o = Some x -> afind (f_key f) o0 = Some x0 ->
       (omitted compact f x -> x0 = x) /\
       (~ omitted compact f x -> restores e compact (f_type f) x0 x)) ->
    restores e compact t (VObj o0) (VObj o).

(* every string and map key of a value *)
Inductive all_strings (P : str -> Prop) : val -> Prop :=
| als_void : all_strings P VVoid
| als_bool b : all_strings P (VBool b)
| als_int z : all_strings P (VInt z)
| als_float x : all_strings P (VFloat x)
| als_str s : P s -> all_strings P (VStr s)
| als_null : all_strings P (VPtr None)
| als_ptr p : all_strings P p -> all_strings P (VPtr (Some p))
| als_list l : (forall x, In x l -> all_strings P x) -> all_strings P (VList l)
| als_map m : (forall k x, In (k, x) m -> P k /\ all_strings P x) -> all_strings P (VMap m)
| als_obj o : (forall k x, In (k, x) o -> all_strings P x) -> all_strings P (VObj o).

(* every field name *)
Definition names_ok (P : str -> Prop) (e : env) : Prop :=
  forall t fs ini f, nth_error e t = Some (DObj fs ini) -> In f fs -> P (json_name f).

(* nesting depth of a value *)
Fixpoint vdepth (v : val) : nat :=
  match v with
  | VPtr (Some p) => vdepth p
  | VList l => S (fold_right (fun x n => Nat.max (vdepth x) n) 0 l)
  | VMap m => S (fold_right (fun kv n => Nat.max (vdepth (snd kv)) n) 0 m)
  | VObj o => S (fold_right (fun kv n => Nat.max (vdepth (snd kv)) n) 0 o)
  | _ => 0
  end.

(* every map inside a value has keys such that P *)
Inductive maps_ok (P : list str -> Prop) : val -> Prop :=
| mo_void : maps_ok P VVoid
| mo_bool b : maps_ok P (VBool b)
| mo_int z : maps_ok P (VInt z)
| mo_float x : maps_ok P (VFloat x)
| mo_str s : maps_ok P (VStr s)
| mo_null : maps_ok P (VPtr None)
| mo_ptr p : maps_ok P p -> maps_ok P (VPtr (Some p))
| mo_list l : (forall x, In x l -> maps_ok P x) -> maps_ok P (VList l)
| mo_map m : P (akeys m) -> (forall k x, In (k, x) m -> maps_ok P x) -> maps_ok P (VMap m)
| mo_obj o : (forall k x, In (k, x) o -> maps_ok P x) -> maps_ok P (VObj o).
(* all maps are std::map: they iterate in key order *)
Definition sorted_maps : val -> Prop := maps_ok sorted.

(* Environments made of bool, int64_t, std::string, lists, string keyed maps and
   classes of these whose default constructor value-initialises every field. *)
Definition simple_type (e : env) (d : jtype) : Prop :=
  match d with
  | DBool | DInt true | DStr | DList _ | DMap _ => True
  | DObj fs ini => akeys ini = map f_key fs /\
      forall f, In f fs -> f_skip f = false /\ afind (f_key f) ini = Some (dval e (f_type f))
  | _ => False
  end.
Definition simple_env (e : env) : Prop := env_ok e /\ forall t d, nth_error e t = Some d -> simple_type e d.
Definition no_void (e : env) : Prop := forall t, nth_error e t <> Some DVoid.
