(* ModelDump.v - the descriptions printed by Type::print, Scope::print, Field::print,
   Overloads::print and Traits::print (src/type.cpp 274-339, src/scope.cpp 104-142,
   src/field.cpp 26-38, src/overloads.cpp 71-84, src/traits.cpp 46-57).
   The C++ containers are unordered: here as elsewhere a map is the list of its pairs in
   iteration order.  What the other models leave out is a parameter (decor): the traits of
   overload sets and of scopes, and std::sort, which is not stable. *)
From Coq Require String. Import String.StringSyntax.
From Verif Require Import Base ModelCore ModelScope.
Local Open Scope outcome_scope.

Record decor := Decor {
  ov_traits : tptr -> str -> list str;       (* of the overload set of a type's function *)
  sc_ov_traits : sptr -> str -> list str;    (* of the overload set of a scope's function *)
  sc_traits : sptr -> list str;
  sort_fields : list field -> list field }.

(* the hexadecimal digits of ostream << std::hex *)
Definition hexdig (d : N) : N := if (d <? 10)%N then (48 + d)%N else (87 + d)%N.
Fixpoint hex_f (fuel : nat) (n : N) : str :=
  match fuel with
  | O => [hexdig (n mod 16)]
  | S f => if (n <? 16)%N then [hexdig n] else hex_f f (n / 16) ++ [hexdig (n mod 16)]
  end.
Definition hex (n : N) : str := hex_f (N.size_nat n) n.

(* std::string(n, ' ') *)
Definition pad (n : nat) : str := repeat 32%N n.
Definition nl : str := [10%N].

Definition nonempty {A : Type} (l : list A) : bool := match l with [] => false | _ => true end.

(* src/traits.cpp 46-57 *)
Definition traits_print (l : list str) : str := lit "[ " ++ flat_map (fun t => t ++ lit " ") l ++ lit "]".

(* src/field.cpp 26-38; the const of the argument is not printed *)
Definition field_print (H : heap) (f : field) : outcome str :=
  match tget H (a_type (fd_arg f)) with
  | None => UB
  | Some t => Ok (lit "0x" ++ hex (fd_offset f) ++ lit ": " ++ t_id t ++ lit " " ++ fd_name f ++
                  if nonempty (fd_traits f) then lit " " ++ traits_print (fd_traits f) else [])
  end.

(* a C++ loop  for (x : l) ss << fn(x)  *)
Fixpoint each {A : Type} (fn : A -> outcome str) (l : list A) : outcome str :=
  match l with
  | [] => Ok []
  | x :: l' => do s <- fn x; do r <- each fn l'; Ok (s ++ r)
  end.

(* src/overloads.cpp 71-84; function.cpp 115-119: signature(fn) *)
Definition overloads_print (H : heap) (traits : list str) (indent : nat) (o : overloads) : outcome str :=
  do r <- each (fun f => do s <- signature H (f_ret f) (f_args f); Ok (pad indent ++ s ++ nl)) o;
  Ok ((if nonempty traits then pad indent ++ traits_print traits ++ nl else []) ++ r).

(* src/type.cpp 294-339; sep is called with parent, traits, fields, functions *)
Fixpoint type_print_f (n : nat) (D : decor) (H : heap) (indent : nat) (T : tptr) : outcome str :=
  match n with
  | O => OutOfFuel
  | S n' =>
    match tget H T with
    | None => UB
    | Some t =>
      let pad0 := pad indent in
      let pad1 := pad (indent + 4) in
      let sep (before next : bool) : str := if next then if before then pad1 ++ nl else [] else [] in
      let has_parent := match t_parent t with Some _ => true | None => false end in
      do p <- match t_parent t with
              | None => Ok []
              | Some q => do s <- type_print_f n' D H (indent + 4) q; Ok (s ++ nl)
              end;
      do fs <- each (fun f => do s <- field_print H f; Ok (pad1 ++ s ++ nl)) (sort_fields D (map snd (t_fields t)));
      do os <- each (fun no : str * overloads =>
                 do s <- overloads_print H (ov_traits D T (fst no)) (indent + 8) (snd no);
                 Ok (pad1 ++ fst no ++ lit ":" ++ nl ++ s)) (t_fns t);
      let b2 := has_parent || nonempty (t_traits t) in
      let b3 := b2 || nonempty (t_fields t) in
      Ok (pad0 ++ lit "type " ++ t_id t ++ nl ++ pad0 ++ lit "{" ++ nl ++
          p ++
          sep has_parent (nonempty (t_traits t)) ++
          (if nonempty (t_traits t) then pad1 ++ traits_print (t_traits t) ++ nl else []) ++
          sep b2 (nonempty (t_fields t)) ++ fs ++
          sep b3 (nonempty (t_fns t)) ++ os ++
          pad0 ++ lit "}")
    end
  end.
Definition type_print (D : decor) (H : heap) : nat -> tptr -> outcome str := type_print_f (fuel_of H) D H.

(* src/scope.cpp 104-142; the parameter is an int there: not negative here *)
Fixpoint scope_print_f (n : nat) (D : decor) (H : heap) (S : sheap) (indent : nat) (p : sptr) : outcome str :=
  match n with
  | O => OutOfFuel
  | Datatypes.S n' =>
    match sget S p with
    | None => UB
    | Some s =>
      let pad0 := pad indent in
      let pad1 := pad (indent + 4) in
      do os <- each (fun no : str * overloads =>
                 do s <- overloads_print H (sc_ov_traits D p (fst no)) (indent + 8) (snd no);
                 Ok (pad1 ++ fst no ++ lit ":" ++ nl ++ s)) (s_fns s);
      do cs <- each (fun kc : str * sptr => do s <- scope_print_f n' D H S (indent + 4) (snd kc); Ok (s ++ nl)) (s_scopes s);
      Ok (pad0 ++ lit "scope " ++ s_name s ++ nl ++ pad0 ++ lit "{" ++ nl ++
          (if nonempty (sc_traits D p) then pad1 ++ traits_print (sc_traits D p) ++ nl else []) ++
          os ++
          (if nonempty (s_fns s) && (nonempty (s_types s) || nonempty (s_scopes s)) then pad0 ++ nl else []) ++
          flat_map (fun kt : str * option tptr => pad1 ++ lit "type " ++ fst kt ++ lit ";" ++ nl) (s_types s) ++
          (if nonempty (s_types s) && nonempty (s_scopes s) then pad0 ++ nl else []) ++
          cs ++
          pad0 ++ lit "}" ++ nl)
    end
  end.
Definition scope_print (D : decor) (H : heap) (S : sheap) : nat -> sptr -> outcome str :=
  scope_print_f (Datatypes.S (length S)) D H S.
