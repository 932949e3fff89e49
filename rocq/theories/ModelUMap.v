(* ModelUMap.v - src/utils/json/parser.cpp with targets that contain
   std::unordered_map (src/types/std/map.h 89-107 reflects both kinds of map with the
   same reflectMap).  A map is the list of its pairs in iteration order.  Where an
   insertion puts a pair, and whether it rehashes the table and so shuffles the others,
   is up to the C++ library: it is a parameter, and since it may depend on the history
   of the table it gets the reader too, whose position is different at every
   insertion.  Everything else is ModelJsonT.parse_dyn and parse_t; printing needs no
   change (ModelJsonT.print_t goes through a map in the order of its list). *)
From Coq Require String. Import String.StringSyntax.
From Verif Require Import Base ModelJson ModelJsonW ModelJsonT.
Local Open Scope outcome_scope.

Definition insertion := reader -> str -> val -> list (str * val) -> list (str * val).

(* parser.cpp 280-327: ValueParser; line 318: emplace, nothing happens if the key is there *)
Fixpoint parse_dyn_u (ins : insertion) (fuel : nat) (v : val) (r : reader) : outcome (val * reader) :=
  match fuel with
  | O => OutOfFuel
  | S f =>
    do (t, r1) <- peek_tok r;
    match t with
    | TNull => do r2 <- parse_null r1; Ok (v, r2)
    | TBool _ => do (b, r2) <- parse_bool r1; Ok (VBool b, r2)
    | TInt => do (z, r2) <- parse_int r1; Ok (VInt z, r2)
    | TFloat => do (x, r2) <- parse_float r1; Ok (VFloat x, r2)
    | TStr => do (s, r2) <- parse_string r1; Ok (VStr s, r2)
    | TArrS =>
      do (l, r2) <- parse_array f (fun _ l r => do (x, r') <- parse_dyn_u ins f VVoid r; Ok (l ++ [x], r')) [] r1;
      Ok (VList l, r2)
    | TObjS =>
      do (m, r2) <- parse_object f (fun k m r =>
        do (x, r') <- parse_dyn_u ins f VVoid r;
        Ok (if ahas k m then m else ins r' k x m, r')) [] r1;
      Ok (VMap m, r2)
    | _ => Ok (v, rerror_set (EUnknown t (rbuf r1)) r1)
    end
  end.

(* the parse methods of parser.cpp; lines as in ModelJsonT.parse_t *)
Fixpoint parse_u (ins : insertion) (fuel : nat) (e : env) (t : nat) (v : val) (r : reader)
    : outcome (val * bool * reader) :=
  match fuel with
  | O => OutOfFuel
  | S f =>
    match nth_error e t with
    | None => Abort
    | Some DBool => do (b, r1) <- parse_bool r; Ok (VBool b, false, r1)
    | Some (DInt is64) => do (z, r1) <- parse_int r; if is64 then Ok (VInt z, false, r1) else Abort
    | Some (DFloat dbl) => do (x, r1) <- parse_float r; if dbl then Ok (VFloat x, false, r1) else Abort
    | Some DStr => do (s, r1) <- parse_string r; Ok (VStr s, false, r1)
    | Some (DPtr smart i) =>
      do (tk, r1) <- peek_tok r;
      if same_type tk TNull then
        do (_, r2) <- next_tok r1;
        Ok (if smart then VPtr None else v, negb smart, r2)
      else
        let p := match v with VPtr (Some p) => p | _ => dval e i end in
        do (p', _, r2) <- parse_u ins f e i p r1;
        Ok (VPtr (Some p'), false, r2)
    | Some (DList i) =>
      do (l, r1) <- parse_array f (fun _ l r =>
        do (x, moved, r') <- parse_u ins f e i (dval e i) r;
        if rok r' then (if moved then Abort else Ok (l ++ [x], r')) else Ok (l, r')) (list_of v) r;
      Ok (VList l, false, r1)
    (* 185: map[key].assign(value): operator[] inserts if need be *)
    | Some (DMap i) =>
      do (m, r1) <- parse_object f (fun k m r =>
        do (x, moved, r') <- parse_u ins f e i (dval e i) r;
        if rok r' then (if moved then Abort else Ok (ins r' k x m, r')) else Ok (m, r')) (map_of v) r;
      Ok (VMap m, false, r1)
    | Some DVoid => do (x, r1) <- parse_dyn_u ins f v r; Ok (x, false, r1)
    | Some (DObj fs _) =>
      do (o, r1) <- parse_object f (fun a o r =>
        match find_alias fs a with
        | None => do r' <- skip f r; Ok (o, r')
        | Some fd =>
          do (x, _, r') <- parse_u ins f e (f_type fd) (field_of (f_key fd) o) r;
          Ok (aset (f_key fd) x o, r')
        end) (obj_of v) r;
      Ok (VObj o, false, r1)
    end
  end.

(* parser.tcc 131-151, parser.cpp 378-381: as ModelJsonT.parse_text *)
Definition parse_text_u (ins : insertion) (fuel : nat) (o : ropts) (e : env) (t : nat) (v : val) (s : str)
    : outcome (val * reader) :=
  do _ <- init_parser fuel e t [];
  do (v', _, r) <- parse_u ins fuel e t v (reader_init o s);
  Ok (v', r).
