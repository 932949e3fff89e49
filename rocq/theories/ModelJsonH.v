(* ModelJsonH.v - src/utils/json/parser.cpp and printer.cpp on objects reached through
   pointers: the same parsers and printers as in ModelJsonT, but working in place on
   objects in memory, so that several pointers may lead to one object.

   Simplifications, besides those of ModelJsonT: a pointer designates a whole object
   made by alloc (no pointers into the middle of another object), and every object
   stays alive (some owner other than the pointers that are reset keeps it); the
   temporaries an element of a container is parsed into (parser.cpp 147, 180) are
   objects of their own, gone once the element is in the container. *)
From Coq Require String. Import String.StringSyntax.
From Verif Require Import Base Dec ModelJson ModelJsonW ModelJsonT.
Local Open Scope outcome_scope.

(* What is in memory: a plain value (scalars, and what a void Value holds), a pointer to
   an object, a list, a map, a class instance. *)
Inductive hval : Type :=
| HV (v : val)
| HP (p : option nat)
| HL (l : list hval)
| HM (m : list (str * hval))
| HO (fs : list (str * hval)).

Definition store := list hval.

(* Type::construct() and Type::alloc() (type.tcc) of a type whose value-initialised state
   is v: the objects its constructor allocates come first. *)
Fixpoint build (v : val) (m : store) : hval * store :=
  match v with
  | VPtr None => (HP None, m)
  | VPtr (Some p) => let (h, m1) := build p m in (HP (Some (length m1)), m1 ++ [h])
  | VList l =>
    let (hs, m1) := (fix go l m := match l with
      | [] => ([], m)
      | x :: l' => let (h, m1) := build x m in let (hs, m2) := go l' m1 in (h :: hs, m2)
      end) l m in (HL hs, m1)
  | VMap l =>
    let (hs, m1) := (fix go l m := match l with
      | [] => ([], m)
      | (k, x) :: l' => let (h, m1) := build x m in let (hs, m2) := go l' m1 in ((k, h) :: hs, m2)
      end) l m in (HM hs, m1)
  | VObj l =>
    let (hs, m1) := (fix go l m := match l with
      | [] => ([], m)
      | (k, x) :: l' => let (h, m1) := build x m in let (hs, m2) := go l' m1 in ((k, h) :: hs, m2)
      end) l m in (HO hs, m1)
  | _ => (HV v, m)
  end.
(* a new object of type t: its address and the memory *)
Definition new_object (e : env) (t : nat) (m : store) : nat * store :=
  let (h, m1) := build (dval e t) m in (length m1, m1 ++ [h]).

(* What a Value handle designates (value.h, Value::field): an object, or a member of a
   member of ... of it. *)
Definition loc : Type := nat * list str.
Definition members (h : hval) : list (str * hval) := match h with HO fs => fs | _ => [] end.
Fixpoint hget (h : hval) (p : list str) : hval :=
  match p with
  | [] => h
  | k :: p' => match afind k (members h) with Some x => hget x p' | None => HV VVoid end
  end.
Fixpoint hset (h : hval) (p : list str) (x : hval) : hval :=
  match p with
  | [] => x
  | k :: p' => HO (aset k (hset (match afind k (members h) with Some y => y | None => HV VVoid end) p' x) (members h))
  end.
Definition cell (m : store) (a : nat) : hval := match nth_error m a with Some h => h | None => HV VVoid end.
Fixpoint put_cell (m : store) (a : nat) (h : hval) : store :=
  match m, a with
  | [], _ => []
  | _ :: m', O => h :: m'
  | x :: m', S a' => x :: put_cell m' a' h
  end.
Definition lget (m : store) (l : loc) : hval := hget (cell m (fst l)) (snd l).
Definition lset (m : store) (l : loc) (x : hval) : store := put_cell m (fst l) (hset (cell m (fst l)) (snd l) x).

Definition hlist (h : hval) : list hval := match h with HL l => l | _ => [] end.
Definition hpairs (h : hval) : list (str * hval) := match h with HM m => m | _ => [] end.
(* std::map<std::string, T>::operator[] then assign *)
Fixpoint hmap_set (k : str) (v : hval) (m : list (str * hval)) : list (str * hval) :=
  match m with
  | [] => [(k, v)]
  | (k', v') :: m' =>
    if str_eqb k k' then (k, v) :: m'
    else if str_ltb k k' then (k, v) :: m
    else (k', v') :: hmap_set k v m'
  end.

(* parser.cpp 280-327: does ValueParser assign the Value for a text starting so? *)
Definition assigns (t : token) : bool :=
  match t with TBool _ | TInt | TFloat | TStr | TArrS | TObjS => true | _ => false end.

(* The parse methods of parser.cpp, on the object designated by the handle l: the new
   memory, and whether the handle was made to designate a temporary (parser.cpp 107). *)
Fixpoint parse_h (fuel : nat) (e : env) (t : nat) (l : loc) (m : store) (r : reader)
    : outcome (store * bool * reader) :=
  match fuel with
  | O => OutOfFuel
  | S f =>
    match nth_error e t with
    | None => Abort
    (* 56-62 *)
    | Some DBool => do (b, r1) <- parse_bool r; Ok (lset m l (HV (VBool b)), false, r1)
    (* 64-70 *)
    | Some (DInt is64) => do (z, r1) <- parse_int r; if is64 then Ok (lset m l (HV (VInt z)), false, r1) else Abort
    (* 72-78 *)
    | Some (DFloat dbl) => do (x, r1) <- parse_float r; if dbl then Ok (lset m l (HV (VFloat x)), false, r1) else Abort
    (* 80-86 *)
    | Some DStr => do (s, r1) <- parse_string r; Ok (lset m l (HV (VStr s)), false, r1)
    (* 93-130: an existing pointee is parsed into; otherwise a new object is, and the
       pointer set to it afterwards *)
    | Some (DPtr smart i) =>
      do (tk, r1) <- peek_tok r;
      if same_type tk TNull then
        do (_, r2) <- next_tok r1;
        Ok (if smart then lset m l (HP None) else m, negb smart, r2)
      else match lget m l with
      | HP (Some a) => do (m1, _, r2) <- parse_h f e i (a, []) m r1; Ok (m1, false, r2)
      | _ =>
        let (a, m1) := new_object e i m in
        do (m2, _, r2) <- parse_h f e i (a, []) m1 r1;
        Ok (lset m2 l (HP (Some a)), false, r2)
      end
    (* 137-160 *)
    | Some (DList i) =>
      do (m', r1) <- parse_array f (fun _ m r =>
        let (a, m1) := new_object e i m in
        do (m2, moved, r') <- parse_h f e i (a, []) m1 r;
        let x := cell m2 a in let m3 := put_cell m2 a (HV VVoid) in
        if rok r' then (if moved then Abort else Ok (lset m3 l (HL (hlist (lget m3 l) ++ [x])), r')) else Ok (m3, r')) m r;
      Ok (m', false, r1)
    (* 167-193 *)
    | Some (DMap i) =>
      do (m', r1) <- parse_object f (fun k m r =>
        let (a, m1) := new_object e i m in
        do (m2, moved, r') <- parse_h f e i (a, []) m1 r;
        let x := cell m2 a in let m3 := put_cell m2 a (HV VVoid) in
        if rok r' then (if moved then Abort else Ok (lset m3 l (HM (hmap_set k x (hpairs (lget m3 l)))), r')) else Ok (m3, r')) m r;
      Ok (m', false, r1)
    (* 280-327 *)
    | Some DVoid =>
      do (x, r1) <- parse_dyn f VVoid r;
      do (tk, _) <- peek_tok r;
      Ok (if assigns tk then lset m l (HV x) else m, false, r1)
    (* 200-248 *)
    | Some (DObj fs _) =>
      do (m', r1) <- parse_object f (fun a m r =>
        match find_alias fs a with
        | None => do r' <- skip f r; Ok (m, r')
        | Some fd =>
          do (m1, _, r') <- parse_h f e (f_type fd) (fst l, snd l ++ [f_key fd]) m r;
          Ok (m1, r')
        end) m r;
      Ok (m', false, r1)
    end
  end.

(* parser.tcc 131-151: parse(str, value) into the object at address a *)
Definition parse_graph (fuel : nat) (o : ropts) (e : env) (t : nat) (a : nat) (m : store) (s : str)
    : outcome (store * reader) :=
  do _ <- init_parser fuel e t [];
  do (m', _, r) <- parse_h fuel e t (a, []) m (reader_init o s);
  Ok (m', r).

(* ---- printing ---- *)

(* printer.cpp 66, 103-106, 116-119, 129-132, 149-152, 181-184, 211-214 *)
Fixpoint is_empty_h (fuel : nat) (e : env) (t : nat) (m : store) (h : hval) : outcome bool :=
  match fuel with
  | O => OutOfFuel
  | S f =>
    match nth_error e t with
    | Some (DPtr _ i) => match h with HP (Some a) => is_empty_h f e i m (cell m a) | _ => Ok true end
    | Some (DList _) => Ok (match hlist h with [] => true | _ => false end)
    | Some (DMap _) => Ok (match hpairs h with [] => true | _ => false end)
    | _ => is_empty (S f) e t (match h with HV v => v | _ => VVoid end)
    end
  end.

(* The print methods of printer.cpp. *)
Fixpoint print_h (fuel : nat) (e : env) (t : nat) (m : store) (h : hval) (w : writer) : outcome writer :=
  match fuel with
  | O => OutOfFuel
  | S f =>
    match nth_error e t with
    (* 145-167 *)
    | Some (DPtr _ i) =>
      match h with
      | HP None => Ok (format_null w)
      | HP (Some a) => print_h f e i m (cell m a) w
      | _ => UB
      end
    (* 174-197 *)
    | Some (DList i) =>
      match h with
      | HL l => print_array (length l) (fun n w =>
          match nth_error l n with Some x => print_h f e i m x w | None => Abort end) w
      | _ => UB
      end
    (* 204-229 *)
    | Some (DMap i) =>
      match h with
      | HM l => print_object (akeys l) (fun k w =>
          match afind k l with Some x => print_h f e i m x w | None => Abort end) (fun _ _ => Ok false) w
      | _ => UB
      end
    (* 268-302 *)
    | Some (DObj fs _) =>
      match h with
      | HO o => print_object (sorted_keys fs) (fun a w =>
          match find_last_alias fs a with
          | Some fd => print_h f e (f_type fd) m (hget h [f_key fd]) w
          | None => Abort
          end)
          (fun a w =>
          if negb (w_compact (wopt w)) && negb (skip_empty_alias fs a) then Ok false
          else match find_last_alias fs a with
               | Some fd => is_empty_h f e (f_type fd) m (hget h [f_key fd])
               | None => Abort
               end) w
      | _ => UB
      end
    (* 93-138, 360-361: scalars *)
    | _ => match h with HV v => print_t (S f) e t v w | _ => match nth_error e t with Some DVoid | None => Abort | _ => UB end end
    end
  end.

(* printer.tcc 105-111 *)
Definition print_graph (fuel : nat) (o : wopts) (e : env) (t : nat) (m : store) (h : hval) : outcome (str * bool) :=
  do _ <- init_printer fuel e t [];
  do w <- print_h fuel e t m h (writer_init o);
  Ok (wout w, werr w).
