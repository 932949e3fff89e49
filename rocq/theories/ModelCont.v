(* ModelCont.v - the bodies behind the reflected members of std::vector, std::map
   and std::unordered_map, and reflected calls that run them.
   Models src/types/std/vector.h 22-43, src/types/std/map.h 26-57 and, for the
   call, the same lines as ModelValue.value_call with the memory made explicit.
   The element and key types have an opaque value, a number: copying an element
   copies the number, moving from it leaves k_moved behind, a default constructed
   one holds k_dflt.  size_t values are numbers too (no overflow). *)
From Coq Require String.
Import String.StringSyntax.
From Verif Require Import Base ModelCore ModelValue.
Local Open Scope outcome_scope.

(* What an object holds.  DVec: a std::vector whose elements are in another object,
   its buffer; DBuf: a buffer; DMap: a map, keys with the node that holds the value,
   in iteration order.  DPtr: a raw pointer or a std::unique_ptr; DShared: a
   std::shared_ptr with its control block; DCtl: a control block, the number of
   owners and the object they share (ModelPtr). *)
Inductive datum := DNone | DData (p : N) | DVec (buf : nat) | DBuf (l : list N) | DMap (l : list (N * nat))
| DPtr (p : option addr) | DShared (p : option addr) (c : option nat) | DCtl (n : nat) (p : option addr).
Definition mem := nat -> datum.
Definition mset (m : mem) (o : nat) (d : datum) : mem := fun x => if Nat.eqb x o then d else m x.

(* the value at an address: an object of the element type, or an element of a buffer *)
Definition read (m : mem) (a : addr) : option N :=
  match m (fst a) with
  | DData p => if N.eqb (snd a) 0 then Some p else None
  | DBuf l => nth_error l (N.to_nat (snd a))
  | _ => None
  end.
Fixpoint set_at (l : list N) (i : nat) (p : N) : list N :=
  match l, i with
  | [], _ => []
  | _ :: l', O => p :: l'
  | x :: l', S i' => x :: set_at l' i' p
  end.
Definition write (m : mem) (a : addr) (p : N) : mem :=
  match m (fst a) with
  | DData _ => mset m (fst a) (DData p)
  | DBuf l => mset m (fst a) (DBuf (set_at l (N.to_nat (snd a)) p))
  | _ => m
  end.

Record cont := Cont { k_base : nat; k_dflt : N; k_moved : N }.

(* what a body gives back: nothing, a reference, or a new object *)
Inductive result := RVoid | RRef (a : addr) | RNew (d : datum).

Definition vec_of (m : mem) (a : addr) : outcome (nat * list N) :=
  match m (fst a) with
  | DVec buf => match m buf with DBuf l => Ok (buf, l) | _ => UB end
  | _ => UB
  end.
Definition get (m : mem) (a : addr) : outcome N :=
  match read m a with Some p => Ok p | None => UB end.

(* the vector at a now holds l, in a new buffer, and its buffer old is gone: any
   operation that may reallocate is taken to do so *)
Definition rebuf (m : mem) (old next : nat) (a : addr) (l : list N) : mem :=
  mset (mset (mset m old DNone) next (DBuf l)) (fst a) (DVec next).

(* v.resize(n) *)
Definition resized (d : N) (l : list N) (n : nat) : list N :=
  firstn n l ++ repeat d (n - length l).

(* The members of std::vector<ValueT> as registered by src/types/std/vector.h
   22-43 on top of reflectPlumbing; the codes are those of ModelPlumb.stdVector.
   The default constructor (0) takes no object: it is reached with Type::construct. *)
Definition vec_body (K : cont) (code : nat) (qs : list param) (m : mem) (next : nat)
  : outcome (mem * nat * result) :=
  match code - k_base K, qs with
  | 0, [] => Ok (mset m next (DBuf []), S next, RNew (DVec next))             (* T_() *)
  | 1, [PRef x] =>                                                            (* T_(const T_&) *)
    do (_, l) <- vec_of m x; Ok (mset m next (DBuf l), S next, RNew (DVec next))
  | 2, [PRef a; PRef x] =>                                                    (* operator=(const T_&) *)
    do (old, _) <- vec_of m a; do (_, l) <- vec_of m x;
    Ok (rebuf m old next a l, S next, RRef a)
  | 3, [PMove x] =>                                                           (* T_(T_&&): takes the buffer *)
    do (buf, _) <- vec_of m x;
    Ok (mset (mset m next (DBuf [])) (fst x) (DVec next), S next, RNew (DVec buf))
  | 4, [PRef a; PMove x] =>                                                   (* operator=(T_&&) *)
    do (old, _) <- vec_of m a; do (buf, _) <- vec_of m x;
    Ok (mset (mset (mset (mset m old DNone) next (DBuf [])) (fst x) (DVec next)) (fst a) (DVec buf), S next, RRef a)
  | 5, [PRef a] => do (_, l) <- vec_of m a; Ok (m, next, RNew (DData (N.of_nat (length l))))   (* 30 size *)
  | 6, [PRef a] => do (old, _) <- vec_of m a; Ok (rebuf m old next a [], S next, RVoid)  (* 31 clear *)
  | 7, [PRef a; PCopy i] =>                                                   (* 32 resize *)
    do (old, l) <- vec_of m a; do n <- get m i;
    Ok (rebuf m old next a (resized (k_dflt K) l (N.to_nat n)), S next, RVoid)
  | 8, [PRef a; PRef x] =>                                                    (* 33 push_back(const ValueT&) *)
    do (old, l) <- vec_of m a; do p <- get m x;
    Ok (rebuf m old next a (l ++ [p]), S next, RVoid)
  | 9, [PRef a; PMove x] =>                                                   (* 34 push_back(ValueT&&) *)
    do p <- get m x;
    let m1 := write m x (k_moved K) in
    do (old, l) <- vec_of m1 a;
    Ok (rebuf m1 old next a (l ++ [p]), S next, RVoid)
  | 10, [PRef a; PCopy i] =>                                                  (* 36-38 operator[] *)
    do (buf, l) <- vec_of m a; do n <- get m i;
    if N.ltb n (N.of_nat (length l)) then Ok (m, next, RRef (buf, n)) else UB
  | 11, [PRef a; PCopy i] =>                                                  (* 39-43 at *)
    do (buf, l) <- vec_of m a; do n <- get m i;
    if N.leb (N.of_nat (length l)) n then Abort else Ok (m, next, RRef (buf, n))
  | _, _ => UB
  end.

(* std::map: nodes in key order; std::unordered_map: in some order (here: the
   newest first) *)
Fixpoint kfind (k : N) (l : list (N * nat)) : option nat :=
  match l with
  | [] => None
  | (k', o) :: l' => if N.eqb k k' then Some o else kfind k l'
  end.
Fixpoint kinsert (k : N) (o : nat) (l : list (N * nat)) : list (N * nat) :=
  match l with
  | [] => [(k, o)]
  | (k', o') :: l' => if N.ltb k k' then (k, o) :: l else (k', o') :: kinsert k o l'
  end.
Definition map_of (m : mem) (a : addr) : outcome (list (N * nat)) :=
  match m (fst a) with DMap l => Ok l | _ => UB end.

(* a copy of the nodes of a map: a new one for each, with the same key and a copy of
   the value, in the same order (std::unordered_map may use another) *)
Fixpoint copy_nodes (m : mem) (next : nat) (l : list (N * nat)) : outcome (mem * nat * list (N * nat)) :=
  match l with
  | [] => Ok (m, next, [])
  | (k, o) :: l' =>
    do p <- get m (o, 0%N);
    do (r, l2) <- copy_nodes (mset m next (DData p)) (S next) l';
    Ok (r, (k, next) :: l2)
  end.
(* the nodes of a map, deleted *)
Fixpoint free_nodes (m : mem) (l : list (N * nat)) : mem :=
  match l with [] => m | (_, o) :: l' => mset (free_nodes m l') o DNone end.

(* The members registered by reflectMap, src/types/std/map.h 26-57, on top of
   reflectPlumbing; the codes are those of ModelPlumb.stdMap.  ordered: std::map.
   Assignment always makes new nodes and deletes the old ones (the library may
   reuse them); move takes the nodes over. *)
Definition map_body (ordered : bool) (K : cont) (code : nat) (qs : list param) (m : mem) (next : nat)
  : outcome (mem * nat * result) :=
  match code - k_base K, qs with
  | 0, [] => Ok (m, next, RNew (DMap []))                                     (* T_() *)
  | 1, [PRef x] =>                                                            (* T_(const T_&) *)
    do l <- map_of m x; do (r, l2) <- copy_nodes m next l; Ok (r, RNew (DMap l2))
  | 2, [PRef a; PRef x] =>                                                    (* operator=(const T_&) *)
    do old <- map_of m a; do l <- map_of m x; do (r, l2) <- copy_nodes m next l;
    let '(m2, next2) := r in
    Ok (mset (free_nodes m2 old) (fst a) (DMap l2), next2, RRef a)
  | 3, [PMove x] =>                                                           (* T_(T_&&): takes the nodes *)
    do l <- map_of m x; Ok (mset m (fst x) (DMap []), next, RNew (DMap l))
  | 4, [PRef a; PMove x] =>                                                   (* operator=(T_&&) *)
    do old <- map_of m a; do l <- map_of m x;
    Ok (mset (mset (free_nodes m old) (fst x) (DMap [])) (fst a) (DMap l), next, RRef a)
  | 5, [PRef a] => do l <- map_of m a; Ok (m, next, RNew (DData (N.of_nat (length l))))   (* 34 size *)
  | 6, [PRef a; PRef x] =>                                                    (* 35-37 count *)
    do l <- map_of m a; do k <- get m x;
    Ok (m, next, RNew (DData (match kfind k l with Some _ => 1 | None => 0 end)%N))
  | 7, [PRef a; PRef x] =>                                                    (* 38-40 operator[] *)
    do l <- map_of m a; do k <- get m x;
    match kfind k l with
    | Some o => Ok (m, next, RRef (o, 0%N))
    | None =>
      Ok (mset (mset m next (DData (k_dflt K))) (fst a)
            (DMap (if ordered then kinsert k next l else (k, next) :: l)), S next, RRef (next, 0%N))
    end
  | 8, [PRef a; PRef x] =>                                                    (* 41-46 at *)
    do l <- map_of m a; do k <- get m x;
    match kfind k l with Some o => Ok (m, next, RRef (o, 0%N)) | None => Abort end
  | 9, [PRef a] =>                                                            (* 48-55 keys *)
    do l <- map_of m a;
    Ok (mset m next (DBuf (map fst l)), S next, RNew (DVec next))
  | _, _ => UB
  end.

(* the copy of a number or of a raw pointer *)
Definition copy_of (m : mem) (a : addr) : outcome datum :=
  match m (fst a) with
  | DPtr p => Ok (DPtr p)
  | _ => do p <- get m a; Ok (DData p)
  end.
(* The constructors run while the arguments are marshalled: each copies (or moves,
   which for these types is the same) one object into the next free one. *)
Fixpoint run_ctors (m : mem) (next : nat) (evs : list (nat * list param)) : outcome mem :=
  match evs with
  | [] => Ok m
  | (_, [PRef a]) :: evs' | (_, [PMove a]) :: evs' =>
    do d <- copy_of m a; run_ctors (mset m next d) (S next) evs'
  | _ => UB
  end.

Definition body := nat -> list param -> mem -> nat -> outcome (mem * nat * result).

(* E for the one call whose callable gives back the reference of res *)
Definition with_ref (E : cpp) (res : result) : cpp :=
  Cpp (cpp_copyable E) (cpp_movable E)
      (fun _ _ => match res with RRef a => a | _ => null_addr end) (cpp_val_result E).

(* Value::call<Value>(name, args...) with Value arguments (value.tcc 110-117,
   overloads.tcc 42-85, function.tcc 142-170, value_function.h 77-133): resolution,
   signature test, marshalling, the body on the memory, the wrapped result. *)
Definition mcall (B : body) (n : nat) (E : cpp) (H : heap) (m : mem) (st : state)
           (v : value) (name : str) (vs : list value) : outcome (value * mem * state) :=
  do os <- function H (v_type v) name;
  do r <- overloads_resolve H os (ret_value H) (map v_arg (v :: vs));
  match r with
  | Chosen f =>
    do g <- test_sig H f (ret_value H) (map v_arg (v :: vs));
    if grade_eqb g MNone then Abort else
    do (qs, st1) <- pass_all n E H st (v :: vs) (f_args f);
    do m1 <- run_ctors m (st_next st) (skipn (length (st_log st)) (st_log st1));
    do (r2, res) <- B (f_code f) qs m1 (st_next st1);
    let '(m2, next2) := r2 in
    do (w, st2) <- wrap_ret (with_ref E res) H f qs (St next2 (st_log st1));
    Ok (w, match res with RNew d => mset m2 next2 d | _ => m2 end, st2)
  | _ => Abort
  end.

(* a client making one call after another on the same handle *)
Fixpoint mcalls (B : body) (n : nat) (E : cpp) (H : heap) (m : mem) (st : state) (v : value)
         (steps : list (str * list value)) : outcome (list value * mem * state) :=
  match steps with
  | [] => Ok ([], m, st)
  | (name, vs) :: steps' =>
    do (r, st1) <- mcall B n E H m st v name vs;
    let '(w, m1) := r in
    do (r2, st2) <- mcalls B n E H m1 st1 v steps';
    let '(ws, m2) := r2 in
    Ok (w :: ws, m2, st2)
  end.
