(* ModelPath.v - src/utils/config/path.{h,cpp,tcc}: has, get and set of a path inside a
   Value.

   The file is not part of the build and calls Value::get<Value>(name) and
   Value::set(name, x), which no longer exist: they are taken to be field access and
   assignment to a field (value.tcc 119-143).  Values are the typed trees of ModelJsonT, with
   its simplifications; a Value is a view of (a part of) one, const or not.  In C++ the
   functions change the object behind the Value: here they give back the whole object as it
   is afterwards. *)
From Verif Require Import Base Dec ModelJson ModelJsonW ModelJsonT ModelConfig ModelConfigStore.
Local Open Scope outcome_scope.

(* types/std/vector.h 32 resize: the elements kept, then value-initialised ones *)
Definition resize_list (e : env) (i : nat) (l : list val) (n : nat) : list val :=
  firstn n l ++ repeat (dval e i) (n - length l).

(* assignment to one element of a vector *)
Fixpoint put_at (l : list val) (n : nat) (x : val) : list val :=
  match l, n with
  | [], _ => []
  | _ :: l', O => x :: l'
  | y :: l', S n' => y :: put_at l' n' x
  end.

(* type.cpp: the field of a class by its name *)
Definition field_named (fs : list field) (k : str) : option field := find (fun f => str_eqb k (f_key f)) fs.

(* `const` of what a pointer points at: types/pointer.h 42-43 hands it on for raw pointers,
   types/std/smart_ptr.h 40 does not *)
Definition const_behind (sm c : bool) : bool := if sm then false else c.

(* resize(path.index(index) + 1) followed by value[path.index(index)], on a vector that
   cannot hold more than max elements (std::length_error or std::bad_alloc beyond).  The
   sum is a size_t. *)
Definition grow (max : N) (e : env) (i : nat) (l : list val) (n : N) : outcome (list val * val) :=
  let m := ((n + 1) mod 2 ^ 64)%N in
  if N.ltb max m then Throw else
  let l' := resize_list e i l (N.to_nat m) in
  match (if N.ltb n (N.of_nat (length l')) then nth_error l' (N.to_nat n) else None) with
  | Some x => Ok (l', x)
  | None => UB                                  (* operator[] past the end *)
  end.

(* path.cpp 148-175: has.  c: is the Value const?  operator[] of vectors and maps is only
   registered for objects that are not (vector.h 35, map.h 39): a call on a const one finds
   no overload.  The keys of the maps are strings, so lines 163-164 do not apply. *)
Fixpoint vhas (e : env) (p : path) : bool -> nat -> val -> outcome bool :=
  match p with
  | [] => fun _ _ _ => Ok true                                               (* 150 *)
  | k :: p' =>
    fix here (c : bool) (t : nat) (v : val) {struct v} : outcome bool :=
      match nth_error e t with
      | None => UB
      | Some (DPtr sm i) =>                                                  (* 152-153 *)
        match v with VPtr (Some x) => here (const_behind sm c) i x | _ => UB end
      | Some (DList i) =>                                                    (* 155-160 *)
        match v with
        | VList l =>
          do d <- isIndex [k] 0;
          if negb d then Ok false else
          do n <- index [k] 0;
          if N.leb (N.of_nat (length l)) n then Ok false else
          if c then Abort else
          match nth_error l (N.to_nat n) with Some x => vhas e p' c i x | None => UB end
        | _ => UB
        end
      | Some (DMap i) =>                                                     (* 162-170 *)
        match v with
        | VMap m =>
          match afind k m with
          | None => Ok false
          | Some x => if c then Abort else vhas e p' c i x
          end
        | _ => UB
        end
      | Some (DObj fs _) =>                                                  (* 172-174 *)
        match field_named fs k with
        | None => Ok false
        | Some f =>
          match v with
          | VObj o => match afind (f_key f) o with Some x => vhas e p' c (f_type f) x | None => UB end
          | _ => UB
          end
        end
      | Some _ => Ok false                                                   (* 172: no fields *)
      end
  end.

(* path.cpp 178-195: get.  What it gives back: a Value (const or not, of some type, with
   some contents) and the whole object afterwards. *)
Record got := Got { g_const : bool; g_type : nat; g_val : val; g_whole : val }.
Definition in_whole (g : got) (w : val) : got := Got (g_const g) (g_type g) (g_val g) w.

Fixpoint vget (max : N) (e : env) (p : path) : bool -> nat -> val -> outcome got :=
  match p with
  | [] => fun c t v => Ok (Got c t v v)                                      (* 180 *)
  | k :: p' =>
    fix here (c : bool) (t : nat) (v : val) {struct v} : outcome got :=
      match nth_error e t with
      | None => UB
      | Some (DPtr sm i) =>                                                  (* 182-183 *)
        match v with
        | VPtr (Some x) => do g <- here (const_behind sm c) i x; Ok (in_whole g (VPtr (Some (g_whole g))))
        | _ => UB
        end
      | Some (DList i) =>                                                    (* 185-189 *)
        match v with
        | VList l =>
          do n <- index [k] 0;
          if c then Abort else
          do (l', x) <- grow max e i l n;
          do g <- vget max e p' c i x;
          Ok (in_whole g (VList (put_at l' (N.to_nat n) (g_whole g))))
        | _ => UB
        end
      | Some (DMap i) =>                                                     (* 191-192 *)
        match v with
        | VMap m =>
          if c then Abort else
          do g <- vget max e p' c i (match afind k m with Some x => x | None => dval e i end);
          Ok (in_whole g (VMap (map_set k (g_whole g) m)))
        | _ => UB
        end
      | Some (DObj fs _) =>                                                  (* 194 *)
        match field_named fs k with
        | None => Abort
        | Some f =>
          match v with
          | VObj o =>
            match afind (f_key f) o with
            | Some x => do g <- vget max e p' c (f_type f) x; Ok (in_whole g (VObj (aset (f_key f) (g_whole g) o)))
            | None => UB
            end
          | _ => UB
          end
        end
      | Some _ => Abort                                                      (* 194: no such field *)
      end
  end.

(* x.assign(arg): the object of type t is given the value of arg.  Simplification: the
   argument has the type of the object, anything else is refused (no conversions). *)
Definition assigned (c : bool) (t ta : nat) (x : val) : outcome val :=
  if c then Abort else if Nat.eqb t ta then Ok x else Abort.

(* path.tcc 15-30: details::set at the last component of the path *)
Fixpoint vset1 (max : N) (e : env) (k : str) (ta : nat) (x : val) (c : bool) (t : nat) (v : val) {struct v} : outcome val :=
  match nth_error e t with
  | None => UB
  | Some (DPtr sm i) =>                                                      (* 18-19 *)
    match v with
    | VPtr (Some y) => do y' <- vset1 max e k ta x (const_behind sm c) i y; Ok (VPtr (Some y'))
    | _ => UB
    end
  | Some (DList i) =>                                                        (* 21-24 *)
    match v with
    | VList l =>
      do n <- index [k] 0;
      if c then Abort else
      do (l', _) <- grow max e i l n;
      do w <- assigned c i ta x;
      Ok (VList (put_at l' (N.to_nat n) w))
    | _ => UB
    end
  | Some (DMap i) =>                                                         (* 26-27 *)
    match v with
    | VMap m => if c then Abort else do w <- assigned c i ta x; Ok (VMap (map_set k w m))
    | _ => UB
    end
  | Some (DObj fs _) =>                                                      (* 29 *)
    match field_named fs k with
    | None => Abort
    | Some f =>
      match v with
      | VObj o =>
        match afind (f_key f) o with
        | Some _ => do w <- assigned c (f_type f) ta x; Ok (VObj (aset (f_key f) w o))
        | None => UB
        end
      | _ => UB
      end
    end
  | Some _ => Abort
  end.

(* Assignment through the Value that vget gave back: the part of v at p becomes w.  The
   path is walked again, but nothing is resized or created. *)
Fixpoint replace_part (e : env) (p : path) (w : val) : nat -> val -> val :=
  match p with
  | [] => fun _ _ => w
  | k :: p' =>
    fix here (t : nat) (v : val) {struct v} : val :=
      match nth_error e t, v with
      | Some (DPtr _ i), VPtr (Some x) => VPtr (Some (here i x))
      | Some (DList i), VList l =>
        let n := N.to_nat (undec k) in
        match nth_error l n with Some x => VList (put_at l n (replace_part e p' w i x)) | None => v end
      | Some (DMap i), VMap m =>
        match afind k m with Some x => VMap (map_set k (replace_part e p' w i x) m) | None => v end
      | Some (DObj fs _), VObj o =>
        match field_named fs k with
        | Some f => match afind (f_key f) o with Some x => VObj (aset (f_key f) (replace_part e p' w (f_type f) x) o) | None => v end
        | None => v
        end
      | _, _ => v
      end
  end.

(* What a Value that vget gave back designates, later on: the part of the object at the
   path.  Simplification: in C++ it is an address, so it dangles when a vector it goes
   through has been resized since. *)
Fixpoint part_at (e : env) (p : path) : nat -> val -> option (nat * val) :=
  match p with
  | [] => fun t v => Some (t, v)
  | k :: p' =>
    fix here (t : nat) (v : val) {struct v} : option (nat * val) :=
      match nth_error e t, v with
      | Some (DPtr _ i), VPtr (Some x) => here i x
      | Some (DList i), VList l => match nth_error l (N.to_nat (undec k)) with Some x => part_at e p' i x | None => None end
      | Some (DMap i), VMap m => match afind k m with Some x => part_at e p' i x | None => None end
      | Some (DObj fs _), VObj o =>
        match field_named fs k with
        | Some f => match afind (f_key f) o with Some x => part_at e p' (f_type f) x | None => None end
        | None => None
        end
      | _, _ => None
      end
  end.

(* path.h 73-84: set *)
Definition vset (max : N) (e : env) (p : path) (ta : nat) (x : val) (c : bool) (t : nat) (v : val) : outcome val :=
  do q <- popBack p;
  do g <- vget max e q c t v;
  do w <- vset1 max e (last p []) ta x (g_const g) (g_type g) (g_val g);
  Ok (replace_part e q w t (g_whole g)).

(* The operations Config needs on its Values (ModelConfigStore.layer): the memory is the
   objects, a Value an object and a path into it; all of them can be written to. *)
Definition roots := list (nat * val).
Definition view := (nat * path)%type.
Fixpoint put_root (m : roots) (r : nat) (v : val) : roots :=
  match m, r with
  | [], _ => []
  | (t, _) :: m', O => (t, v) :: m'
  | x :: m', S r' => x :: put_root m' r' v
  end.
Definition contents (e : env) (m : roots) (x : view) : option (nat * val) :=
  match nth_error m (fst x) with Some (t, v) => part_at e (snd x) t v | None => None end.
Definition path_layer (max : N) (e : env) : layer view roots := Layer
  (fun m x p => match contents e m x with Some (t, v) => vhas e p false t v | None => UB end)
  (fun m x p =>
    match nth_error m (fst x), contents e m x with
    | Some (t, v), Some (u, w) =>
      do g <- vget max e p false u w;
      Ok ((fst x, snd x ++ p), put_root m (fst x) (replace_part e (snd x) (g_whole g) t v))
    | _, _ => UB
    end)
  (fun m x k a =>
    match nth_error m (fst x), contents e m x, contents e m a with
    | Some (t, v), Some (u, w), Some (ta, y) =>
      do w' <- vset1 max e k ta y false u w;
      Ok (put_root m (fst x) (replace_part e (snd x) w' t v))
    | _, _, _ => UB
    end).
