(* SpecCodec.v - what property C79 talks about: what the JSON code asks of a reflected
   type, which kind of codec a type gets, which types it refers to, when a type has a
   codec at all, and when a codec object is the right one for its type.  Only data
   types are taken from the model (field, val, str). *)
From Coq Require Import Relations Sorting.Permutation Sorting.Sorted.
From Coq Require String. Import String.StringSyntax.
From Verif Require Import Base Dec ModelJsonT SpecJsonT.

(* Parsing and printing have a table of codecs each. *)
Inductive side := Reading | Printing.

(* What parser.cpp 334-361 / printer.cpp 341-369 and the init methods look at in a
   reflected type. *)
Record desc := mkD {
  d_traits : list str;       (* the traits Type::is answers yes for *)
  d_pointee : option nat;    (* Type::isPointer, Type::pointee *)
  d_value : option nat;      (* the trait valueType, if it has one *)
  d_parser : str;            (* the json trait's parser and printer names, empty for none *)
  d_printer : str;
  d_funs : list str;         (* the functions with the signature a custom codec needs *)
  d_void : bool;             (* the type void *)
  d_fields : list field;     (* the fields with their json traits *)
  (* not looked at when the codec is built, but when it is used: *)
  d_exact : bool;            (* int64_t among the integers, double among the floats *)
  d_init : list (str * val)  (* what the default constructor makes of the fields *)
}.

Definition has (d : desc) (trait : str) : Prop := In trait (d_traits d).
Definition custom (s : side) (d : desc) : str := match s with Reading => d_parser d | Printing => d_printer d end.

(* ---- which codec ---- *)
Inductive kind := KBool | KInt | KFloat | KStr | KPtr | KMap | KList | KCustom | KVoid | KObj.

Definition applies (s : side) (d : desc) (k : kind) : Prop :=
  match k with
  | KBool => has d (lit "bool")
  | KInt => has d (lit "integer")
  | KFloat => has d (lit "float")
  | KStr => has d (lit "string")
  | KPtr => exists i, d_pointee d = Some i
  | KMap => has d (lit "map")
  | KList => has d (lit "list")
  | KCustom => custom s d <> []
  | KVoid => d_void d = true
  | KObj => True
  end.

(* The first kind that applies, in this order, is taken. *)
Definition order (s : side) : list kind :=
  match s with
  | Reading => [KBool; KFloat; KInt; KStr; KPtr; KMap; KList; KCustom; KVoid; KObj]
  | Printing => [KBool; KInt; KFloat; KStr; KPtr; KMap; KList; KCustom; KVoid; KObj]
  end.

Definition codec_kind (s : side) (d : desc) (k : kind) : Prop :=
  exists before after, order s = before ++ k :: after /\ applies s d k /\
    forall k', In k' before -> ~ applies s d k'.

(* The fields that occur in JSON, in order. *)
Definition shown (d : desc) : list field := filter (fun f => negb (f_skip f)) (d_fields d).

(* ---- the types a type refers to, and the types that have a codec ---- *)
Definition refers (s : side) (W : list desc) (t u : nat) : Prop :=
  exists d k, nth_error W t = Some d /\ codec_kind s d k /\
    match k with
    | KPtr => d_pointee d = Some u
    | KMap | KList => d_value d = Some u
    | KObj => exists f, In f (shown d) /\ f_type f = u
    | _ => False
    end.

Definition reach (s : side) (W : list desc) : nat -> nat -> Prop := clos_refl_trans nat (refers s W).

(* A container must name its value type, a custom codec must exist, the names of the
   fields must differ (when reading; when printing nobody looks), and void has no text. *)
Definition well (s : side) (W : list desc) (t : nat) : Prop :=
  exists d k, nth_error W t = Some d /\ codec_kind s d k /\
    match k with
    | KMap | KList => exists u, d_value d = Some u
    | KCustom => In (custom s d) (d_funs d)
    | KVoid => s = Reading
    | KObj => match s with
              | Reading => NoDup (map json_name (shown d))
              | Printing => NoDup (map f_key (shown d))
              end
    | _ => True
    end.

(* A world of reflected types: the fields of a type have different names (they are kept
   in a map by name). *)
Definition world_ok (W : list desc) : Prop := forall d, In d W -> NoDup (map f_key (d_fields d)).

(* ---- codec objects ---- *)
Record codec := mkC {
  c_kind : kind;
  c_inner : option (nat * nat);     (* the inner type and the address of its codec *)
  c_smart : bool;
  c_fun : str;
  c_keys : list (str * str);        (* JSON name -> field *)
  c_fields : list (str * nat);      (* field -> address of its codec *)
  c_sorted : list str;              (* printing: the JSON names in printing order *)
  c_skips : list str                (* printing: the names left out when empty *)
}.

(* The table of one side: which type has which codec; and the objects, by address. *)
Record table := mkT { t_cache : list (nat * nat); t_objs : list codec }.

Definition cached (st : table) (t a : nat) : Prop := In (t, a) (t_cache st).

(* The codec c is the right one for the type t: of the right kind, and the codecs it uses
   are those the table has for the types it refers to. *)
Definition right (s : side) (W : list desc) (st : table) (t : nat) (c : codec) : Prop :=
  exists d k, nth_error W t = Some d /\ codec_kind s d k /\ c_kind c = k /\
    match k with
    | KPtr => (exists i b, d_pointee d = Some i /\ c_inner c = Some (i, b) /\ cached st i b) /\
              (s = Reading -> (c_smart c = true <-> has d (lit "smartPtr")))
    | KMap | KList => exists i b, d_value d = Some i /\ c_inner c = Some (i, b) /\ cached st i b
    | KCustom => c_fun c = custom s d
    | KObj =>
      (* every field that is shown has its codec, and no other name has *)
      (forall f, In f (shown d) -> exists b, afind (f_key f) (c_fields c) = Some b /\ cached st (f_type f) b) /\
      (forall k, In k (akeys (c_fields c)) -> exists f, In f (shown d) /\ f_key f = k) /\
      (* a JSON name leads to the last field with that name *)
      (forall n k, afind n (c_keys c) = Some k <->
         exists l1 f l2, shown d = l1 ++ f :: l2 /\ json_name f = n /\ f_key f = k /\
                         ~ In n (map json_name l2)) /\
      (s = Printing ->
         Permutation (c_sorted c) (map json_name (shown d)) /\
         StronglySorted (fun a b => str_ltb b a = false) (c_sorted c) /\
         (forall n, In n (c_skips c) <-> exists f, In f (shown d) /\ json_name f = n /\ f_skipempty f = true))
    | _ => True
    end.

(* A table as it is between two lookups: at most one codec per type, one object per
   codec, and every codec is that of a type that can have one, and the right one. *)
Definition complete (s : side) (W : list desc) (st : table) : Prop :=
  NoDup (map fst (t_cache st)) /\
  NoDup (map snd (t_cache st)) /\
  (forall a, a < length (t_objs st) <-> In a (map snd (t_cache st))) /\
  (forall t a, cached st t a -> well s W t /\ exists c, nth_error (t_objs st) a = Some c /\ right s W st t c).
