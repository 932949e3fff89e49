(* ModelJsonS.v - the parsers on a stack of limited size.  Models the same lines as
   skip (ModelJson), parse_dyn and parse_t (ModelJsonT): src/utils/json/parser.tcc
   96-124, src/utils/json/parser.cpp 56-327, with two numbers instead of one: d, the
   calls that may be nested, and n, the rounds each loop may take.  Simplifications:
   a level is one call of skip or of a Parser's parse (with the parseArray or
   parseObject and the lambda it runs), all taken to need the same room; OutOfFuel is
   the stack overflow (c86_enough_stack: with the n of `parse_on` and `skip_on` no loop
   runs out). *)
From Verif Require Import Base Dec ModelJson ModelJsonT.
Local Open Scope outcome_scope.

(* src/utils/json/parser.tcc 96-124 *)
Fixpoint skip_s (d n : nat) (r : reader) : outcome reader :=
  match d with
  | O => OutOfFuel
  | S d' =>
    do (t, r1) <- peek_tok r;
    if negb (rok r1) then Ok r1 else
    match t with
    | TNull | TBool _ | TInt | TFloat | TStr => do (_, r2) <- next_tok r1; Ok r2
    | TArrS =>
      do (_, r2) <- parse_array n (fun _ (_ : unit) r => do r' <- skip_s d' n r; Ok (tt, r')) tt r1;
      Ok r2
    | TObjS =>
      do (_, r2) <- parse_object n (fun _ (_ : unit) r => do r' <- skip_s d' n r; Ok (tt, r')) tt r1;
      Ok r2
    | _ => UB
    end
  end.

(* src/utils/json/parser.cpp 280-327 *)
Fixpoint dyn_s (d n : nat) (v : val) (r : reader) : outcome (val * reader) :=
  match d with
  | O => OutOfFuel
  | S d' =>
    do (t, r1) <- peek_tok r;
    match t with
    | TNull => do r2 <- parse_null r1; Ok (v, r2)
    | TBool _ => do (b, r2) <- parse_bool r1; Ok (VBool b, r2)
    | TInt => do (z, r2) <- parse_int r1; Ok (VInt z, r2)
    | TFloat => do (x, r2) <- parse_float r1; Ok (VFloat x, r2)
    | TStr => do (s, r2) <- parse_string r1; Ok (VStr s, r2)
    | TArrS =>
      do (l, r2) <- parse_array n (fun _ l r => do (x, r') <- dyn_s d' n VVoid r; Ok (l ++ [x], r')) [] r1;
      Ok (VList l, r2)
    | TObjS =>
      do (m, r2) <- parse_object n (fun k m r =>
        do (x, r') <- dyn_s d' n VVoid r;
        Ok (if ahas k m then m else m ++ [(k, x)], r')) [] r1;
      Ok (VMap m, r2)
    | _ => Ok (v, rerror_set (EUnknown t (rbuf r1)) r1)
    end
  end.

(* src/utils/json/parser.cpp 56-248 *)
Fixpoint typed_s (d n : nat) (e : env) (t : nat) (v : val) (r : reader)
    : outcome (val * bool * reader) :=
  match d with
  | O => OutOfFuel
  | S d' =>
    match nth_error e t with
    | None => Abort
    | Some DBool => do (b, r1) <- parse_bool r; Ok (VBool b, false, r1)
    | Some (DInt is64) => do (z, r1) <- parse_int r; if is64 then Ok (VInt z, false, r1) else Abort
    | Some (DFloat dbl) => do (x, r1) <- parse_float r; if dbl then Ok (VFloat x, false, r1) else Abort
    | Some DStr => do (s, r1) <- parse_string r; Ok (VStr s, false, r1)
    | Some (DPtr smart i) =>
      do (tk, r1) <- peek_tok r;
      if same_type tk TNull then
        do (_, r2) <- next_tok r1;
        Ok (if smart then VPtr None else v, negb smart, r2)
      else
        let p := match v with VPtr (Some p) => p | _ => dval e i end in
        do (p', _, r2) <- typed_s d' n e i p r1;
        Ok (VPtr (Some p'), false, r2)
    | Some (DList i) =>
      do (l, r1) <- parse_array n (fun _ l r =>
        do (x, moved, r') <- typed_s d' n e i (dval e i) r;
        if rok r' then (if moved then Abort else Ok (l ++ [x], r')) else Ok (l, r')) (list_of v) r;
      Ok (VList l, false, r1)
    | Some (DMap i) =>
      do (m, r1) <- parse_object n (fun k m r =>
        do (x, moved, r') <- typed_s d' n e i (dval e i) r;
        if rok r' then (if moved then Abort else Ok (map_set k x m, r')) else Ok (m, r')) (map_of v) r;
      Ok (VMap m, false, r1)
    | Some DVoid => do (x, r1) <- dyn_s d' n v r; Ok (x, false, r1)
    | Some (DObj fs _) =>
      do (o, r1) <- parse_object n (fun a o r =>
        match find_alias fs a with
        | None => do r' <- skip_s d' n r; Ok (o, r')
        | Some fd =>
          do (x, _, r') <- typed_s d' n e (f_type fd) (field_of (f_key fd) o) r;
          Ok (aset (f_key fd) x o, r')
        end) (obj_of v) r;
      Ok (VObj o, false, r1)
    end
  end.

(* src/utils/json/parser.tcc 131-151, src/utils/json/parser.cpp 378-381: parse(str, value)
   with room for d nested calls.  Building the parsers nests by the types only. *)
Definition parse_on (d : nat) (o : ropts) (e : env) (t : nat) (v : val) (s : str) : outcome (val * reader) :=
  do _ <- init_parser (S (length e)) e t [];
  do (v', _, r) <- typed_s d (length s + 3) e t v (reader_init o s);
  Ok (v', r).
(* skip on a new reader *)
Definition skip_on (d : nat) (o : ropts) (s : str) : outcome reader := skip_s d (length s + 3) (reader_init o s).
