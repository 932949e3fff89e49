(* ModelCodec.v - src/utils/json/parser.cpp 334-381 (getParser, getParserLocked, parse),
   printer.cpp 341-389 (getPrinter, getPrinterLocked, print) and the init methods of the
   codecs: the table of codecs, filled on demand and kept for the life of the program.

   The mutex of getParserLocked / getPrinterLocked makes a lookup one step; a
   reflectError in the middle ends it as Failed, which is only of interest in the build
   with exceptions (error.cpp 35-43).  TypeParser::movable is not modelled. *)
From Coq Require String. Import String.StringSyntax.
From Verif Require Import Base Dec ModelJson ModelJsonW ModelJsonT SpecCodec.

(* parser.cpp 17-21, printer.cpp 52-56: customParser, customPrinter *)
Definition custom_of (s : side) (d : desc) : str :=
  match s with Reading => d_parser d | Printing => d_printer d end.

Definition is_trait (d : desc) (n : str) : bool := smem n (d_traits d).
Definition is_ptr (d : desc) : bool := match d_pointee d with Some _ => true | None => false end.
Definition no_name (n : str) : bool := match n with [] => true | _ => false end.

(* parser.cpp 343-356: the codec getParser makes *)
Definition choose_r (d : desc) : kind :=
  if is_trait d (lit "bool") then KBool
  else if is_trait d (lit "float") then KFloat
  else if is_trait d (lit "integer") then KInt
  else if is_trait d (lit "string") then KStr
  else if is_ptr d then KPtr
  else if is_trait d (lit "map") then KMap
  else if is_trait d (lit "list") then KList
  else if negb (no_name (custom_of Reading d)) then KCustom
  else if d_void d then KVoid
  else KObj.

(* printer.cpp 350-363: the codec getPrinter makes (integer before float) *)
Definition choose_p (d : desc) : kind :=
  if is_trait d (lit "bool") then KBool
  else if is_trait d (lit "integer") then KInt
  else if is_trait d (lit "float") then KFloat
  else if is_trait d (lit "string") then KStr
  else if is_ptr d then KPtr
  else if is_trait d (lit "map") then KMap
  else if is_trait d (lit "list") then KList
  else if negb (no_name (custom_of Printing d)) then KCustom
  else if d_void d then KVoid
  else KObj.

Definition choose (s : side) (d : desc) : kind :=
  match s with Reading => choose_r d | Printing => choose_p d end.

(* new XParser: nothing is filled in before init *)
Definition blank_codec (k : kind) : codec := mkC k None false [] [] [] [] [].

(* parser.cpp 336-339: the lookup in the static unordered_map *)
Fixpoint cfind (t : nat) (l : list (nat * nat)) : option nat :=
  match l with
  | [] => None
  | (u, a) :: l' => if Nat.eqb t u then Some a else cfind t l'
  end.

Definition set_at (a : nat) (g : codec -> codec) (l : list codec) : list codec :=
  map (fun p => if Nat.eqb (fst p) a then g (snd p) else snd p) (combine (seq 0 (length l)) l).

(* a member of the codec at address a is written *)
Definition put (a : nat) (g : codec -> codec) (st : table) : table :=
  mkT (t_cache st) (set_at a g (t_objs st)).

Definition set_inner (x : nat * nat) (c : codec) : codec :=
  mkC (c_kind c) (Some x) (c_smart c) (c_fun c) (c_keys c) (c_fields c) (c_sorted c) (c_skips c).
Definition set_smart (b : bool) (c : codec) : codec :=
  mkC (c_kind c) (c_inner c) b (c_fun c) (c_keys c) (c_fields c) (c_sorted c) (c_skips c).
Definition set_fun (n : str) (c : codec) : codec :=
  mkC (c_kind c) (c_inner c) (c_smart c) n (c_keys c) (c_fields c) (c_sorted c) (c_skips c).
(* parser.cpp 216; printer.cpp 256-258 *)
Definition add_key (s : side) (f : field) (c : codec) : codec :=
  mkC (c_kind c) (c_inner c) (c_smart c) (c_fun c) (aset (f_name f) (f_key f) (c_keys c)) (c_fields c)
      (match s with Reading => c_sorted c | Printing => c_sorted c ++ [f_name f] end)
      (match s with Reading => c_skips c
                  | Printing => if f_skipempty f then c_skips c ++ [f_name f] else c_skips c end).
(* parser.cpp 220; printer.cpp 262: emplace keeps an entry that is there *)
Definition add_field (f : field) (b : nat) (c : codec) : codec :=
  mkC (c_kind c) (c_inner c) (c_smart c) (c_fun c) (c_keys c)
      (if ahas (f_key f) (c_fields c) then c_fields c else c_fields c ++ [(f_key f, b)])
      (c_sorted c) (c_skips c).
(* printer.cpp 265 *)
Definition sort_names (c : codec) : codec :=
  mkC (c_kind c) (c_inner c) (c_smart c) (c_fun c) (c_keys c) (c_fields c) (sort_strs (c_sorted c)) (c_skips c).

Inductive got := Got (a : nat) | Failed | NoFuel.

(* parser.cpp 214-215 looks for the alias among the aliases; printer.cpp 253-254 for the
   field's own name among the fields *)
Definition taken (s : side) (f : field) (a : nat) (st : table) : bool :=
  match nth_error (t_objs st) a with
  | Some c => match s with Reading => ahas (f_name f) (c_keys c) | Printing => ahas (f_key f) (c_fields c) end
  | None => false
  end.

(* parser.cpp 202-222, printer.cpp 238-266: ObjectParser::init, ObjectPrinter::init *)
Fixpoint init_fields (get : nat -> table -> table * got) (s : side) (a : nat) (fs : list field) (st : table)
    : table * got :=
  match fs with
  | [] => (match s with Reading => st | Printing => put a sort_names st end, Got a)
  | f :: fs' =>
    if f_skip f then init_fields get s a fs' st
    else if taken s f a st then (st, Failed)
    else
      match get (f_type f) (put a (add_key s f) st) with
      | (st2, Got b) => init_fields get s a fs' (put a (add_field f b) st2)
      | (st2, x) => (st2, x)
      end
  end.

(* parser.cpp 43-47, printer.cpp 76-79: TypeParser::init, TypePrinter::init *)
Definition init_inner (get : nat -> table -> table * got) (a : nat) (i : option nat) (fin : codec -> codec)
    (st : table) : table * got :=
  match i with
  | None => (st, Failed)
  | Some u =>
    match get u st with
    | (st2, Got b) => (put a (fun c => fin (set_inner (u, b) c)) st2, Got a)
    | (st2, x) => (st2, x)
    end
  end.

(* parser.cpp 334-361 getParser, printer.cpp 341-369 getPrinter, with the init methods
   (parser.cpp 95-99, 139-142, 169-172, 256-263; printer.cpp 147, 176-179, 206-209,
   312-319).  The entry is made before init runs, so a type may refer to itself.  A type
   that does not exist fails (in the code a pointer to it cannot exist). *)
Fixpoint get (fuel : nat) (s : side) (W : list desc) (t : nat) (st : table) : table * got :=
  match fuel with
  | O => (st, NoFuel)
  | S n =>
    match cfind t (t_cache st) with
    | Some a => (st, Got a)
    | None =>
      match nth_error W t with
      | None => (st, Failed)
      | Some d =>
        let k := choose s d in
        let a := length (t_objs st) in
        let st1 := mkT ((t, a) :: t_cache st) (t_objs st ++ [blank_codec k]) in
        match k with
        | KPtr => init_inner (get n s W) a (d_pointee d)
                    (match s with Reading => set_smart (is_trait d (lit "smartPtr")) | Printing => fun c => c end) st1
        | KMap | KList => init_inner (get n s W) a (d_value d) (fun c => c) st1
        | KCustom => if smem (custom_of s d) (d_funs d) then (put a (set_fun (custom_of s d)) st1, Got a)
                     else (st1, Failed)
        | KVoid => match s with Reading => (st1, Got a) | Printing => (st, Failed) end
        | KObj => init_fields (get n s W) s a (d_fields d) st1
        | _ => (st1, Got a)
        end
      end
    end
  end.

(* parser.cpp 363-369, printer.cpp 371-377: one lookup under the mutex.  A chain of
   lookups enters each type at most once. *)
Definition lookup (s : side) (W : list desc) (t : nat) (st : table) : table * got :=
  get (S (length W)) s W t st.

(* ---- using the codecs ---- *)

(* The environment of ModelJsonT: what the codec of each type is chosen to be. *)
Definition jtype_of (s : side) (d : desc) : jtype :=
  match choose s d with
  | KBool => DBool
  | KInt => DInt (d_exact d)
  | KFloat => DFloat (d_exact d)
  | KStr => DStr
  | KPtr => DPtr (is_trait d (lit "smartPtr")) (match d_pointee d with Some i => i | None => 0 end)
  | KMap => DMap (match d_value d with Some i => i | None => 0 end)
  | KList => DList (match d_value d with Some i => i | None => 0 end)
  | KCustom | KVoid => DVoid
  | KObj => DObj (d_fields d) (d_init d)
  end.
Definition env_of (s : side) (W : list desc) : env := map (jtype_of s) W.

(* the type of the field a Value of type t has under that name *)
Definition field_type (W : list desc) (t : nat) (k : str) : option nat :=
  match nth_error W t with
  | Some d => option_map f_type (find (fun f => str_eqb k (f_key f)) (d_fields d))
  | None => None
  end.
Definition exact_type (W : list desc) (t : nat) : bool :=
  match nth_error W t with Some d => d_exact d | None => false end.
Definition pointee_type (W : list desc) (t : nat) : option nat :=
  match nth_error W t with Some d => d_pointee d | None => None end.

Section Use.
Context (cust_parse : str -> nat -> val -> reader -> outcome (val * reader)).
Context (cust_print : str -> nat -> val -> writer -> outcome writer).
Local Open Scope outcome_scope.

(* The parse methods (parser.cpp 56-327) of the codec at address a, given a Value of type
   t: as ModelJsonT.parse_t, but the kind, the inner codecs, the alias and the field
   tables are those of the codec objects; what depends on the Value (the type of *ptr and
   of a field, whether assign accepts an int64_t) is taken from the Value's type. *)
Fixpoint parse_c (fuel : nat) (W : list desc) (st : table) (a t : nat) (v : val) (r : reader)
    : outcome (val * bool * reader) :=
  match fuel with
  | O => OutOfFuel
  | S f =>
    match nth_error (t_objs st) a with
    | None => UB
    | Some c =>
      match c_kind c with
      | KBool => do (b, r1) <- parse_bool r; Ok (VBool b, false, r1)
      | KInt => do (z, r1) <- parse_int r; if exact_type W t then Ok (VInt z, false, r1) else Abort
      | KFloat => do (x, r1) <- parse_float r; if exact_type W t then Ok (VFloat x, false, r1) else Abort
      | KStr => do (s, r1) <- parse_string r; Ok (VStr s, false, r1)
      | KPtr =>
        match c_inner c, pointee_type W t with
        | Some (i, b), Some pt =>
          do (tk, r1) <- peek_tok r;
          if same_type tk TNull then
            do (_, r2) <- next_tok r1;
            Ok (if c_smart c then VPtr None else v, negb (c_smart c), r2)
          else
            match v with
            | VPtr (Some p) => do (p', _, r2) <- parse_c f W st b pt p r1; Ok (VPtr (Some p'), false, r2)
            | _ => do (p', _, r2) <- parse_c f W st b i (dval (env_of Reading W) i) r1; Ok (VPtr (Some p'), false, r2)
            end
        | _, _ => UB
        end
      | KList =>
        match c_inner c with
        | Some (i, b) =>
          do (l, r1) <- parse_array f (fun _ l r =>
            do (x, moved, r') <- parse_c f W st b i (dval (env_of Reading W) i) r;
            if rok r' then (if moved then Abort else Ok (l ++ [x], r')) else Ok (l, r')) (list_of v) r;
          Ok (VList l, false, r1)
        | None => UB
        end
      | KMap =>
        match c_inner c with
        | Some (i, b) =>
          do (m, r1) <- parse_object f (fun k m r =>
            do (x, moved, r') <- parse_c f W st b i (dval (env_of Reading W) i) r;
            if rok r' then (if moved then Abort else Ok (map_set k x m, r')) else Ok (m, r')) (map_of v) r;
          Ok (VMap m, false, r1)
        | None => UB
        end
      | KCustom => do (x, r1) <- cust_parse (c_fun c) t v r; Ok (x, false, r1)
      | KVoid => do (x, r1) <- parse_dyn f v r; Ok (x, false, r1)
      | KObj =>
        do (o, r1) <- parse_object f (fun al o r =>
          match afind al (c_keys c) with
          | None => do r' <- skip f r; Ok (o, r')
          | Some key =>
            match afind key (c_fields c), field_type W t key with
            | Some b, Some ft =>
              do (x, _, r') <- parse_c f W st b ft (field_of key o) r;
              Ok (aset key x o, r')
            | _, _ => Abort
            end
          end) (obj_of v) r;
        Ok (VObj o, false, r1)
      end
    end
  end.

(* printer.cpp 66, 103-106, 116-119, 129-132, 149-152, 181-184, 211-214 on the codec
   objects: isEmpty *)
Fixpoint is_empty_c (fuel : nat) (W : list desc) (st : table) (a t : nat) (v : val) : outcome bool :=
  match fuel with
  | O => OutOfFuel
  | S f =>
    match nth_error (t_objs st) a with
    | None => UB
    | Some c =>
      match c_kind c with
      | KInt => if exact_type W t then Ok (match v with VInt z => Z.eqb z 0 | _ => false end) else Abort
      | KFloat => if exact_type W t then Ok (match v with VFloat x => float_zero x | _ => false end) else Abort
      | KStr => Ok (match v with VStr s => match s with [] => true | _ => false end | _ => false end)
      | KPtr =>
        match c_inner c, pointee_type W t with
        | Some (_, b), Some pt => match v with VPtr (Some p) => is_empty_c f W st b pt p | _ => Ok true end
        | _, _ => UB
        end
      | KList => Ok (match list_of v with [] => true | _ => false end)
      | KMap => Ok (match map_of v with [] => true | _ => false end)
      | _ => Ok false
      end
    end
  end.

(* The print methods of printer.cpp 93-302, on the codec objects, as ModelJsonT.print_t *)
Fixpoint print_c (fuel : nat) (W : list desc) (st : table) (a t : nat) (v : val) (w : writer) : outcome writer :=
  match fuel with
  | O => OutOfFuel
  | S f =>
    match nth_error (t_objs st) a with
    | None => UB
    | Some c =>
      match c_kind c with
      | KBool => match v with VBool b => Ok (format_bool b w) | _ => UB end
      | KInt => match v with VInt z => if exact_type W t then Ok (format_int z w) else Abort | _ => UB end
      | KFloat => match v with VFloat x => if exact_type W t then Ok (push x w) else Abort | _ => UB end
      | KStr => match v with VStr s => format_string s w | _ => UB end
      | KPtr =>
        match c_inner c, pointee_type W t with
        | Some (_, b), Some pt =>
          match v with
          | VPtr None => Ok (format_null w)
          | VPtr (Some p) => print_c f W st b pt p w
          | _ => UB
          end
        | _, _ => UB
        end
      | KList =>
        match c_inner c, v with
        | Some (i, b), VList l => print_array (length l) (fun n w =>
            match nth_error l n with Some x => print_c f W st b i x w | None => Abort end) w
        | _, _ => UB
        end
      | KMap =>
        match c_inner c, v with
        | Some (i, b), VMap m => print_object (akeys m) (fun k w =>
            match afind k m with Some x => print_c f W st b i x w | None => Abort end) (fun _ _ => Ok false) w
        | _, _ => UB
        end
      | KCustom => cust_print (c_fun c) t v w
      | KVoid => Abort
      | KObj =>
        match v with
        | VObj o => print_object (c_sorted c) (fun al w =>
            match afind al (c_keys c) with
            | None => Abort
            | Some key =>
              match afind key (c_fields c), field_type W t key with
              | Some b, Some ft => print_c f W st b ft (field_of key o) w
              | _, _ => Abort
              end
            end)
            (fun al w =>
            if negb (w_compact (wopt w)) && negb (smem al (c_skips c)) then Ok false
            else match afind al (c_keys c) with
                 | None => Abort
                 | Some key =>
                   match afind key (c_fields c), field_type W t key with
                   | Some b, Some ft => is_empty_c f W st b ft (field_of key o)
                   | _, _ => Abort
                   end
                 end) w
        | _ => UB
        end
      end
    end
  end.
End Use.
