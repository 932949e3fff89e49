(* ModelJsonT.v - src/utils/json/parser.cpp and printer.cpp: the parsers and
   printers chosen from the reflected type.

   A type is an index into an environment of type descriptions, so types may refer
   to each other recursively.  Simplifications: custom parsers and printers are not
   modelled here (ModelCodec has them); maps are std::map<std::string, T>
   (std::unordered_map: ModelUMap); every type is default
   constructible and can be allocated; pointers own their pointee (no sharing);
   doubles are represented by a text (see ModelJson.stod). *)
From Coq Require String. Import String.StringSyntax.
From Verif Require Import Base Dec ModelJson ModelJsonW.
Local Open Scope outcome_scope.

(* The objects a reflected Value can designate. *)
Inductive val : Type :=
| VVoid
| VBool (b : bool)
| VInt (z : Z)
| VFloat (x : str)
| VStr (s : str)
| VPtr (p : option val)
| VList (l : list val)
| VMap (m : list (str * val))
| VObj (fs : list (str * val)).

(* traits.h 17-28 + a field of a reflected type: its name, type and json trait
   (f_alias = [] when there is none).  skipEmpty is uninitialised in Traits()
   (traits.cpp 14); the model takes it as given. *)
Record field := mkF { f_key : str; f_type : nat; f_skip : bool; f_alias : str; f_skipempty : bool }.

(* What getParser / getPrinter look at (parser.cpp 334-361, printer.cpp 341-369).
   DInt true is int64_t; DInt false any other integral type (they are distinct
   reflected types without converters, types/primitives.tcc 30-57); likewise for
   DFloat and double.  DObj also carries the state its default constructor gives. *)
Inductive jtype : Type :=
| DBool
| DInt (is_int64 : bool)
| DFloat (is_double : bool)
| DStr
| DPtr (smart : bool) (inner : nat)
| DMap (inner : nat)
| DList (inner : nat)
| DVoid
| DObj (fs : list field) (init : list (str * val)).

Definition env := list jtype.

(* Type::construct() / Type::alloc(): the value-initialised object *)
Definition dval (e : env) (t : nat) : val :=
  match nth_error e t with
  | Some DBool => VBool false
  | Some (DInt _) => VInt 0
  | Some (DFloat _) => VFloat (lit "0")
  | Some DStr => VStr []
  | Some (DPtr _ _) => VPtr None
  | Some (DMap _) => VMap []
  | Some (DList _) => VList []
  | Some DVoid => VVoid
  | Some (DObj _ i) => VObj i
  | None => VVoid
  end.

(* parser.cpp 207-212, printer.cpp 243-251: the name a field has in the text *)
Definition f_name (f : field) : str := match f_alias f with [] => f_key f | a => a end.

(* parser.cpp 204-221: the alias -> key and key -> type tables of ObjectParser *)
Definition obj_fields (fs : list field) : list field := filter (fun f => negb (f_skip f)) fs.
Definition find_alias (fs : list field) (a : str) : option field :=
  find (fun f => str_eqb a (f_name f)) (obj_fields fs).

(* parser.cpp 214-215: reflectError on a duplicate alias *)
Fixpoint dup_alias (fs : list field) : bool :=
  match fs with
  | [] => false
  | f :: fs' => smem (f_name f) (map f_name fs') || dup_alias fs'
  end.

(* parser.cpp 334-361 getParser + the init methods (95-99, 140-143, 170-173,
   202-222): depth first over the types the root refers to, each type being entered
   in the cache before its own init runs.  Returns the cache. *)
Fixpoint init_parser (fuel : nat) (e : env) (t : nat) (cache : list nat) : outcome (list nat) :=
  match fuel with
  | O => OutOfFuel
  | S f =>
    if existsb (Nat.eqb t) cache then Ok cache else
    let cache1 := t :: cache in
    match nth_error e t with
    | None => Abort
    | Some (DPtr _ i) | Some (DMap i) | Some (DList i) => init_parser f e i cache1
    | Some (DObj fs _) =>
      if dup_alias (obj_fields fs) then Abort else
      fold_left (fun acc fd => do c <- acc; init_parser f e (f_type fd) c) (obj_fields fs) (Ok cache1)
    | Some _ => Ok cache1
    end
  end.

(* std::map<std::string, T>::operator[] then assign: sorted association list *)
Fixpoint map_set (k : str) (v : val) (m : list (str * val)) : list (str * val) :=
  match m with
  | [] => [(k, v)]
  | (k', v') :: m' =>
    if str_eqb k k' then (k, v) :: m'
    else if str_ltb k k' then (k, v) :: m
    else (k', v') :: map_set k v m'
  end.

Definition list_of (v : val) : list val := match v with VList l => l | _ => [] end.
Definition map_of (v : val) : list (str * val) := match v with VMap m => m | _ => [] end.
Definition obj_of (v : val) : list (str * val) := match v with VObj o => o | _ => [] end.
Definition field_of (k : str) (o : list (str * val)) : val :=
  match afind k o with Some v => v | None => VVoid end.

(* parser.cpp 280-327: ValueParser, for a void Value.  An object becomes an
   unordered_map<string, Value> filled with emplace (the first occurrence of a key
   stays); it is represented by the association list in order of first occurrence.
   The isStored test of lines 324-325 cannot fail here: Value(x) of a temporary is
   stored. *)
Fixpoint parse_dyn (fuel : nat) (v : val) (r : reader) : outcome (val * reader) :=
  match fuel with
  | O => OutOfFuel
  | S f =>
    do (t, r1) <- peek_tok r;
    match t with
    | TNull => do r2 <- parse_null r1; Ok (v, r2)
    | TBool _ => do (b, r2) <- parse_bool r1; Ok (VBool b, r2)
    | TInt => do (z, r2) <- parse_int r1; Ok (VInt z, r2)
    | TFloat => do (x, r2) <- parse_float r1; Ok (VFloat x, r2)
    | TStr => do (s, r2) <- parse_string r1; Ok (VStr s, r2)
    | TArrS =>
      do (l, r2) <- parse_array f (fun _ l r => do (x, r') <- parse_dyn f VVoid r; Ok (l ++ [x], r')) [] r1;
      Ok (VList l, r2)
    | TObjS =>
      do (m, r2) <- parse_object f (fun k m r =>
        do (x, r') <- parse_dyn f VVoid r;
        Ok (if ahas k m then m else m ++ [(k, x)], r')) [] r1;
      Ok (VMap m, r2)
    | _ => Ok (v, rerror_set (EUnknown t (rbuf r1)) r1)
    end
  end.

(* The parse methods of parser.cpp: returns the new state of the object, and
   whether the Value handle passed by reference was made to designate a temporary
   of the pointee type instead (parser.cpp 107: null into a raw pointer).  A handle
   so replaced makes push_back (153) and operator= (185) abort: the temporary has
   the pointee's type. *)
Fixpoint parse_t (fuel : nat) (e : env) (t : nat) (v : val) (r : reader)
    : outcome (val * bool * reader) :=
  match fuel with
  | O => OutOfFuel
  | S f =>
    match nth_error e t with
    | None => Abort
    (* 56-62 *)
    | Some DBool => do (b, r1) <- parse_bool r; Ok (VBool b, false, r1)
    (* 64-70: operator= of another integral type does not accept an int64_t *)
    | Some (DInt is64) => do (z, r1) <- parse_int r; if is64 then Ok (VInt z, false, r1) else Abort
    (* 72-78 *)
    | Some (DFloat dbl) => do (x, r1) <- parse_float r; if dbl then Ok (VFloat x, false, r1) else Abort
    (* 80-86 *)
    | Some DStr => do (s, r1) <- parse_string r; Ok (VStr s, false, r1)
    (* 93-130 *)
    | Some (DPtr smart i) =>
      do (tk, r1) <- peek_tok r;
      if same_type tk TNull then
        do (_, r2) <- next_tok r1;
        Ok (if smart then VPtr None else v, negb smart, r2)
      else
        let p := match v with VPtr (Some p) => p | _ => dval e i end in
        do (p', _, r2) <- parse_t f e i p r1;
        Ok (VPtr (Some p'), false, r2)
    (* 137-160 *)
    | Some (DList i) =>
      do (l, r1) <- parse_array f (fun _ l r =>
        do (x, moved, r') <- parse_t f e i (dval e i) r;
        if rok r' then (if moved then Abort else Ok (l ++ [x], r')) else Ok (l, r')) (list_of v) r;
      Ok (VList l, false, r1)
    (* 167-193 *)
    | Some (DMap i) =>
      do (m, r1) <- parse_object f (fun k m r =>
        do (x, moved, r') <- parse_t f e i (dval e i) r;
        if rok r' then (if moved then Abort else Ok (map_set k x m, r')) else Ok (m, r')) (map_of v) r;
      Ok (VMap m, false, r1)
    (* 280-327 *)
    | Some DVoid => do (x, r1) <- parse_dyn f v r; Ok (x, false, r1)
    (* 200-248 *)
    | Some (DObj fs _) =>
      do (o, r1) <- parse_object f (fun a o r =>
        match find_alias fs a with
        | None => do r' <- skip f r; Ok (o, r')
        | Some fd =>
          do (x, _, r') <- parse_t f e (f_type fd) (field_of (f_key fd) o) r;
          Ok (aset (f_key fd) x o, r')
        end) (obj_of v) r;
      Ok (VObj o, false, r1)
    end
  end.

(* parser.tcc 131-151 + parser.cpp 378-381: parse(str, value): initialise the
   parser, run it, return the value and the reader's error.  The fuel is that of the
   recursive functions. *)
Definition parse_text (fuel : nat) (o : ropts) (e : env) (t : nat) (v : val) (s : str)
    : outcome (val * reader) :=
  do _ <- init_parser fuel e t [];
  do (v', _, r) <- parse_t fuel e t v (reader_init o s);
  Ok (v', r).

(* ---- printing ---- *)

(* value == 0 on the text of a double: no digit of the mantissa is non zero *)
Fixpoint float_zero (x : str) : bool :=
  match x with
  | [] => true
  | c :: x' => if (c =? 101)%N || (c =? 69)%N then true
               else if isdigit c && negb (c =? 48)%N then false else float_zero x'
  end.

(* printer.cpp 66, 103-106, 116-119, 129-132, 149-152, 181-184, 211-214: isEmpty.
   cast<const int64_t&> of another integral type aborts (cast.cpp 16-35). *)
Fixpoint is_empty (fuel : nat) (e : env) (t : nat) (v : val) : outcome bool :=
  match fuel with
  | O => OutOfFuel
  | S f =>
    match nth_error e t with
    | Some (DInt is64) => if is64 then Ok (match v with VInt z => Z.eqb z 0 | _ => false end) else Abort
    | Some (DFloat dbl) => if dbl then Ok (match v with VFloat x => float_zero x | _ => false end) else Abort
    | Some DStr => Ok (match v with VStr s => match s with [] => true | _ => false end | _ => false end)
    | Some (DPtr _ i) => match v with VPtr (Some p) => is_empty f e i p | _ => Ok true end
    | Some (DList _) => Ok (match list_of v with [] => true | _ => false end)
    | Some (DMap _) => Ok (match map_of v with [] => true | _ => false end)
    | Some _ => Ok false
    | None => Abort
    end
  end.

(* std::sort of the aliases (printer.cpp 265) *)
Fixpoint insert_str (k : str) (l : list str) : list str :=
  match l with
  | [] => [k]
  | x :: l' => if str_ltb k x then k :: l else x :: insert_str k l'
  end.
Definition sort_strs (l : list str) : list str := fold_right insert_str [] l.

(* printer.cpp 240-265: ObjectPrinter::init: keys[alias] = key (the last field of
   that alias wins), the sorted aliases, and the set of skipEmpty aliases.  Two
   fields with one alias are not rejected: only the field names are tested. *)
Definition sorted_keys (fs : list field) : list str := sort_strs (map f_name (obj_fields fs)).
Definition find_last_alias (fs : list field) (a : str) : option field :=
  find (fun f => str_eqb a (f_name f)) (rev (obj_fields fs)).
Definition skip_empty_alias (fs : list field) (a : str) : bool :=
  existsb (fun f => str_eqb a (f_name f) && f_skipempty f) (obj_fields fs).

(* printer.cpp 341-369 getPrinter + the init methods: depth first with a cache *)
Fixpoint init_printer (fuel : nat) (e : env) (t : nat) (cache : list nat) : outcome (list nat) :=
  match fuel with
  | O => OutOfFuel
  | S f =>
    if existsb (Nat.eqb t) cache then Ok cache else
    let cache1 := t :: cache in
    match nth_error e t with
    | None => Abort
    | Some DVoid => Abort    (* 360-361 *)
    | Some (DPtr _ i) | Some (DMap i) | Some (DList i) => init_printer f e i cache1
    | Some (DObj fs _) =>
      fold_left (fun acc fd => do c <- acc; init_printer f e (f_type fd) c) (obj_fields fs) (Ok cache1)
    | Some _ => Ok cache1
    end
  end.

(* The print methods of printer.cpp.  A double is printed as its text. *)
Fixpoint print_t (fuel : nat) (e : env) (t : nat) (v : val) (w : writer) : outcome writer :=
  match fuel with
  | O => OutOfFuel
  | S f =>
    match nth_error e t with
    | None => Abort
    (* 93-99, 22-25 *)
    | Some DBool => match v with VBool b => Ok (format_bool b w) | _ => UB end
    (* 101-112, 27-30: cast<int64_t> of another integral type aborts *)
    | Some (DInt is64) => match v with VInt z => if is64 then Ok (format_int z w) else Abort | _ => UB end
    (* 114-125, 32-35 *)
    | Some (DFloat dbl) => match v with VFloat x => if dbl then Ok (push x w) else Abort | _ => UB end
    (* 127-138, 37-40 *)
    | Some DStr => match v with VStr s => format_string s w | _ => UB end
    (* 145-167 *)
    | Some (DPtr _ i) =>
      match v with
      | VPtr None => Ok (format_null w)
      | VPtr (Some p) => print_t f e i p w
      | _ => UB
      end
    (* 174-197 *)
    | Some (DList i) =>
      match v with
      | VList l => print_array (length l) (fun n w =>
          match nth_error l n with Some x => print_t f e i x w | None => Abort end) w
      | _ => UB
      end
    (* 204-229 *)
    | Some (DMap i) =>
      match v with
      | VMap m => print_object (akeys m) (fun k w =>
          match afind k m with Some x => print_t f e i x w | None => Abort end) (fun _ _ => Ok false) w
      | _ => UB
      end
    (* 360-361 *)
    | Some DVoid => Abort
    (* 268-302 *)
    | Some (DObj fs _) =>
      match v with
      | VObj o => print_object (sorted_keys fs) (fun a w =>
          match find_last_alias fs a with
          | Some fd => print_t f e (f_type fd) (field_of (f_key fd) o) w
          | None => Abort
          end)
          (fun a w =>
          if negb (w_compact (wopt w)) && negb (skip_empty_alias fs a) then Ok false
          else match find_last_alias fs a with
               | Some fd => is_empty f e (f_type fd) (field_of (f_key fd) o)
               | None => Abort
               end) w
      | _ => UB
      end
    end
  end.

(* printer.tcc 105-111 + printer.cpp 386-389: print(writer, value): the text and
   whether an error was recorded *)
Definition print_text (fuel : nat) (o : wopts) (e : env) (t : nat) (v : val) : outcome (str * bool) :=
  do _ <- init_printer fuel e t [];
  do w <- print_t fuel e t v (writer_init o);
  Ok (wout w, werr w).
