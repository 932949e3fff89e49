(* ModelJsonL.v - src/utils/json/parser.cpp on objects reached through pointers, as
   ModelJsonH, with the lifetimes of the objects: std::shared_ptr and std::unique_ptr
   (src/types/std/smart_ptr.h 32-75) destroy what they own when the last of them is reset,
   assigned or destroyed, plain pointers do not.

   Simplifications, besides those of ModelJsonH (which keeps every object alive): the
   number of owners is counted over the objects alive instead of being stored in a control
   block; a pointer that a constructor fills owns its object; using an object that was
   destroyed is undefined behaviour (UB), and so is making a reference to it from a
   pointer. *)
From Coq Require String. Import String.StringSyntax.
From Verif Require Import Base Dec ModelJson ModelJsonW ModelJsonT ModelJsonH.
Local Open Scope outcome_scope.

(* ModelJsonH.hval with the kind of each pointer: true for a smart pointer *)
Inductive lval : Type :=
| LV (v : val)
| LP (own : bool) (p : option nat)
| LL (l : list lval)
| LM (m : list (str * lval))
| LO (fs : list (str * lval)).

(* None: destroyed *)
Definition lstore := list (option lval).

(* the pointers in an object: kind and object pointed to *)
Fixpoint ptrs (h : lval) : list (bool * nat) :=
  match h with
  | LV _ => []
  | LP _ None => []
  | LP k (Some a) => [(k, a)]
  | LL l => concat (map ptrs l)
  | LM l | LO l => concat (map (fun kv => ptrs (snd kv)) l)
  end.
(* the objects it owns *)
Definition owned (h : lval) : list nat := map snd (filter fst (ptrs h)).
Definition owned_at (c : option lval) : list nat := match c with Some h => owned h | None => [] end.
Definition all_owned (m : lstore) : list nat := concat (map owned_at m).

(* ModelJsonH.build, new_object, hget, hset, put_cell, hlist, hpairs, hmap_set *)
Fixpoint lbuild (v : val) (m : lstore) : lval * lstore :=
  match v with
  | VPtr None => (LP true None, m)
  | VPtr (Some p) => let (h, m1) := lbuild p m in (LP true (Some (length m1)), m1 ++ [Some h])
  | VList l =>
    let (hs, m1) := (fix go l m := match l with
      | [] => ([], m)
      | x :: l' => let (h, m1) := lbuild x m in let (hs, m2) := go l' m1 in (h :: hs, m2)
      end) l m in (LL hs, m1)
  | VMap l =>
    let (hs, m1) := (fix go l m := match l with
      | [] => ([], m)
      | (k, x) :: l' => let (h, m1) := lbuild x m in let (hs, m2) := go l' m1 in ((k, h) :: hs, m2)
      end) l m in (LM hs, m1)
  | VObj l =>
    let (hs, m1) := (fix go l m := match l with
      | [] => ([], m)
      | (k, x) :: l' => let (h, m1) := lbuild x m in let (hs, m2) := go l' m1 in ((k, h) :: hs, m2)
      end) l m in (LO hs, m1)
  | _ => (LV v, m)
  end.
Definition lnew (e : env) (t : nat) (m : lstore) : nat * lstore :=
  let (h, m1) := lbuild (dval e t) m in (length m1, m1 ++ [Some h]).
Definition lmembers (h : lval) : list (str * lval) := match h with LO fs => fs | _ => [] end.
Fixpoint vget (h : lval) (p : list str) : lval :=
  match p with
  | [] => h
  | k :: p' => match afind k (lmembers h) with Some x => vget x p' | None => LV VVoid end
  end.
Fixpoint vset (h : lval) (p : list str) (x : lval) : lval :=
  match p with
  | [] => x
  | k :: p' => LO (aset k (vset (match afind k (lmembers h) with Some y => y | None => LV VVoid end) p' x) (lmembers h))
  end.
Fixpoint put (m : lstore) (a : nat) (c : option lval) : lstore :=
  match m, a with
  | [], _ => []
  | _ :: m', O => c :: m'
  | x :: m', S a' => x :: put m' a' c
  end.
Definition llist (h : lval) : list lval := match h with LL l => l | _ => [] end.
Definition lpairs (h : lval) : list (str * lval) := match h with LM m => m | _ => [] end.
Fixpoint lmap_set (k : str) (v : lval) (m : list (str * lval)) : list (str * lval) :=
  match m with
  | [] => [(k, v)]
  | (k', v') :: m' =>
    if str_eqb k k' then (k, v) :: m'
    else if str_ltb k k' then (k, v) :: m
    else (k', v') :: lmap_set k v m'
  end.

(* Each object of the list has just lost an owner: destroy those that nobody owns any more,
   neither an object alive nor, for those in ext, somebody outside; what a destroyed object
   owned loses an owner in turn. *)
Fixpoint release (fuel : nat) (ext : list nat) (todo : list nat) (m : lstore) : lstore :=
  match fuel, todo with
  | O, _ | _, [] => m
  | S f, b :: todo' =>
    if existsb (Nat.eqb b) ext || existsb (Nat.eqb b) (all_owned m) then release f ext todo' m
    else match nth_error m b with
         | Some (Some h) => release f ext (owned h ++ todo') (put m b None)
         | _ => release f ext todo' m
         end
  end.
(* the object h is gone from m *)
Definition dropped (ext : list nat) (h : lval) (m : lstore) : lstore :=
  release (length (owned h) + length (all_owned m)) ext (owned h) m.

(* the content of the object a handle designates, and its replacement; whatever the object
   owned before the replacement is looked at again: what the rest of it owns stays owned *)
Definition look (m : lstore) (l : loc) : outcome lval :=
  match nth_error m (fst l) with Some (Some h) => Ok (vget h (snd l)) | _ => UB end.
Definition write (ext : list nat) (m : lstore) (l : loc) (x : lval) : outcome lstore :=
  match nth_error m (fst l) with
  | Some (Some h) => Ok (dropped ext h (put m (fst l) (Some (vset h (snd l) x))))
  | _ => UB
  end.

(* The parse methods of parser.cpp; lines as in ModelJsonH.parse_h. *)
Fixpoint parse_l (ext : list nat) (fuel : nat) (e : env) (t : nat) (l : loc) (m : lstore) (r : reader)
    : outcome (lstore * bool * reader) :=
  match fuel with
  | O => OutOfFuel
  | S f =>
    match nth_error e t with
    | None => Abort
    | Some DBool => do (b, r1) <- parse_bool r; do m1 <- write ext m l (LV (VBool b)); Ok (m1, false, r1)
    | Some (DInt is64) =>
      do (z, r1) <- parse_int r;
      if is64 then do m1 <- write ext m l (LV (VInt z)); Ok (m1, false, r1) else Abort
    | Some (DFloat dbl) =>
      do (x, r1) <- parse_float r;
      if dbl then do m1 <- write ext m l (LV (VFloat x)); Ok (m1, false, r1) else Abort
    | Some DStr => do (s, r1) <- parse_string r; do m1 <- write ext m l (LV (VStr s)); Ok (m1, false, r1)
    (* 93-130 *)
    | Some (DPtr smart i) =>
      do (tk, r1) <- peek_tok r;
      if same_type tk TNull then
        do (_, r2) <- next_tok r1;
        if smart then do m1 <- write ext m l (LP true None); Ok (m1, false, r2) else Ok (m, true, r2)
      else
        do h <- look m l;
        match h with
        | LP _ (Some a) =>
          do _ <- look m (a, []);
          do (m1, _, r2) <- parse_l ext f e i (a, []) m r1; Ok (m1, false, r2)
        | _ =>
          let (a, m1) := lnew e i m in
          do (m2, _, r2) <- parse_l ext f e i (a, []) m1 r1;
          do m3 <- write ext m2 l (LP smart (Some a));
          Ok (m3, false, r2)
        end
    (* 137-160: the item is moved into the vector, or destroyed *)
    | Some (DList i) =>
      do (m', r1) <- parse_array f (fun _ m r =>
        let (a, m1) := lnew e i m in
        do (m2, moved, r') <- parse_l ext f e i (a, []) m1 r;
        do x <- look m2 (a, []);
        let m3 := put m2 a None in
        if rok r' then
          if moved then Abort else
          do h <- look m3 l;
          do m4 <- write ext m3 l (LL (llist h ++ [x]));
          Ok (m4, r')
        else Ok (dropped ext x m3, r')) m r;
      Ok (m', false, r1)
    (* 167-193: assigned over the value the key had *)
    | Some (DMap i) =>
      do (m', r1) <- parse_object f (fun k m r =>
        let (a, m1) := lnew e i m in
        do (m2, moved, r') <- parse_l ext f e i (a, []) m1 r;
        do x <- look m2 (a, []);
        let m3 := put m2 a None in
        if rok r' then
          if moved then Abort else
          do h <- look m3 l;
          do m4 <- write ext m3 l (LM (lmap_set k x (lpairs h)));
          Ok (m4, r')
        else Ok (dropped ext x m3, r')) m r;
      Ok (m', false, r1)
    (* 280-327 *)
    | Some DVoid =>
      do (x, r1) <- parse_dyn f VVoid r;
      do (tk, _) <- peek_tok r;
      if assigns tk then do m1 <- write ext m l (LV x); Ok (m1, false, r1) else Ok (m, false, r1)
    (* 200-248 *)
    | Some (DObj fs _) =>
      do (m', r1) <- parse_object f (fun a m r =>
        match find_alias fs a with
        | None => do r' <- skip f r; Ok (m, r')
        | Some fd =>
          do (m1, _, r') <- parse_l ext f e (f_type fd) (fst l, snd l ++ [f_key fd]) m r;
          Ok (m1, r')
        end) m r;
      Ok (m', false, r1)
    end
  end.

(* parser.tcc 131-151: parse(str, value) into the object at address a; the objects of ext
   are owned by somebody outside *)
Definition parse_live (ext : list nat) (fuel : nat) (o : ropts) (e : env) (t : nat) (a : nat) (m : lstore) (s : str)
    : outcome (lstore * reader) :=
  do _ <- init_parser fuel e t [];
  do (m', _, r) <- parse_l ext fuel e t (a, []) m (reader_init o s);
  Ok (m', r).
