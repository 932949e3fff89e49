(* ModelPtr.v - the bodies behind the reflected members of raw pointers,
   std::shared_ptr and std::unique_ptr, and reflected calls that run them.
   Models src/types/pointer.h 38-41 and src/types/std/smart_ptr.h 31-75; the
   std:: operations they call are those of the C++ standard.  Objects live in the
   memory of ModelCont.  Simplifications: every object that is deleted came from
   new; the raw pointers copied into by-value parameters are not reclaimed. *)
From Coq Require String.
Import String.StringSyntax.
From Verif Require Import Base ModelCore ModelValue ModelCont.
Local Open Scope outcome_scope.

(* delete p *)
Definition delete (m : mem) (p : option addr) : outcome mem :=
  match p with
  | None => Ok m
  | Some a => if N.eqb (snd a) 0 then match m (fst a) with DNone => UB | _ => Ok (mset m (fst a) DNone) end else UB
  end.

(* the raw pointer at a *)
Definition ptr_of (m : mem) (a : addr) : outcome (option addr) :=
  match m (fst a) with DPtr p => Ok p | _ => UB end.

Definition same_addr (p q : option addr) : bool :=
  match p, q with
  | None, None => true
  | Some a, Some b => Nat.eqb (fst a) (fst b) && N.eqb (snd a) (snd b)
  | _, _ => false
  end.
Definition truth (b : bool) : datum := DData (if b then 1 else 0)%N.
Definition is_set (p : option addr) : bool := match p with Some _ => true | None => false end.

(* The members of T* as registered by src/types/pointer.h 38-41 on top of
   reflectPlumbing; the codes are those of ModelPlumb.rawPointer.  The special
   members (0-4) are not called through this body. *)
Definition raw_body (base code : nat) (qs : list param) (m : mem) (next : nat) : outcome (mem * nat * result) :=
  match code - base, qs with
  | 5, [PCopy i] => do p <- ptr_of m i; Ok (m, next, RNew (truth (is_set p)))          (* 38 operator bool() *)
  | 6, [PRef a] | 7, [PRef a] =>                                                       (* 40, 41 operator* *)
    do p <- ptr_of m a; match p with Some t => Ok (m, next, RRef t) | None => UB end
  | _, _ => UB
  end.

(* What a smart pointer holds: the pointer and, for a std::shared_ptr, the control
   block (none after default construction, a move or a reset). *)
Definition share := (option addr * option nat)%type.
Definition slot (shared : bool) (s : share) : datum := if shared then DShared (fst s) (snd s) else DPtr (fst s).
Definition smart_of (shared : bool) (m : mem) (a : addr) : outcome share :=
  match m (fst a), shared with
  | DShared p c, true => Ok (p, c)
  | DPtr p, false => Ok (p, None)
  | _, _ => UB
  end.
(* take ownership of p: T_(p); a std::shared_ptr makes a control block, for a null p too *)
Definition take (shared : bool) (m : mem) (next : nat) (p : option addr) : mem * nat * share :=
  if shared then (mset m next (DCtl 1 p), S next, (p, Some next)) else (m, next, (p, None)).
(* one more owner *)
Definition retain (m : mem) (s : share) : outcome mem :=
  match snd s with
  | None => Ok m
  | Some k => match m k with DCtl n p => Ok (mset m k (DCtl (S n) p)) | _ => UB end
  end.
(* one owner less: the last one deletes *)
Definition drop (shared : bool) (m : mem) (s : share) : outcome mem :=
  if shared then
    match snd s with
    | None => Ok m
    | Some k =>
      match m k with
      | DCtl 1 p => do m1 <- delete m p; Ok (mset m1 k DNone)
      | DCtl (S (S n)) p => Ok (mset m k (DCtl (S n) p))
      | _ => UB
      end
    end
  else delete m (fst s).

(* The members registered by src/types/std/smart_ptr.h 31-44 (reflectSmartPtr) and
   53-60 (std::shared_ptr) or 67-75 (std::unique_ptr) on top of reflectPlumbing; the
   codes are those of ModelPlumb.sharedPtr and uniquePtr. *)
Definition smart_body (shared : bool) (base code : nat) (qs : list param) (m : mem) (next : nat)
  : outcome (mem * nat * result) :=
  let empty := (None, None) in
  let set m a s := mset m (fst a) (slot shared s) in
  let reset a m next s :=                                          (* T_(...).swap(value) and the old share goes *)
    do old <- smart_of shared m a; do m1 <- drop shared (set m a s) old; Ok (m1, next) in
  match code - base, shared, qs with
  | 0, _, [] => Ok (m, next, RNew (slot shared empty))                                  (* T_() *)
  | 1, true, [PRef x] =>                                                                (* T_(const T_&) *)
    do s <- smart_of shared m x; do m1 <- retain m s; Ok (m1, next, RNew (slot shared s))
  | 2, true, [PRef a; PRef x] =>                                                        (* operator=(const T_&) *)
    do s <- smart_of shared m x; do m1 <- retain m s; do r <- reset a m1 next s; Ok (r, RRef a)
  | 3, _, [PMove x] =>                                                                  (* T_(T_&&) *)
    do s <- smart_of shared m x; Ok (set m x empty, next, RNew (slot shared s))
  | 4, _, [PRef a; PMove x] =>                                                          (* operator=(T_&&) *)
    do s <- smart_of shared m x; do r <- reset a (set m x empty) next s; Ok (r, RRef a)
  | 5, _, [PCopy i] =>                                                                  (* 35 T_(InnerT pointer) *)
    do p <- ptr_of m i; let '(m1, next1, s) := take shared m next p in Ok (m1, next1, RNew (slot shared s))
  | 6, _, [PRef a] => do s <- smart_of shared m a; Ok (m, next, RNew (DPtr (fst s)))    (* 38 get *)
  | 7, _, [PRef a] => do s <- smart_of shared m a; Ok (m, next, RNew (truth (is_set (fst s))))   (* 39 operator bool() *)
  | 8, _, [PRef a] =>                                                                   (* 40 operator* *)
    do s <- smart_of shared m a; match fst s with Some t => Ok (m, next, RRef t) | None => UB end
  | 9, _, [PRef a; PRef x] =>                                                           (* 41-43 operator== *)
    do s <- smart_of shared m a; do s' <- smart_of shared m x;
    Ok (m, next, RNew (truth (same_addr (fst s) (fst s'))))
  | 10, true, [PRef a] | 12, false, [PRef a] =>                                         (* 58, 74 reset() *)
    do r <- reset a m next empty; Ok (r, RVoid)
  | 10, false, [PRef a] =>                                                              (* 72 release *)
    do s <- smart_of shared m a; Ok (set m a empty, next, RNew (DPtr (fst s)))
  | 11, _, [PRef a; PCopy i] =>                                                         (* 59, 73 reset(T* ) *)
    do p <- ptr_of m i; let '(m1, next1, s) := take shared m next p in
    do r <- reset a m1 next1 s; Ok (r, RVoid)
  | _, _, _ => UB
  end.

(* the destructor, when the last Value that stores a smart pointer goes
   (src/value.tcc 63-81, value.h storage) *)
Definition smart_destroy (shared : bool) (m : mem) (o : nat) : outcome mem :=
  do s <- smart_of shared m (o, 0%N); drop shared (mset m o DNone) s.

(* Type::call<Value>(name, args...) and Type::construct (type.tcc 33-47) with Value
   arguments; ModelCont.mcall is this one on the type of the handle. *)
Definition mtype_call (B : body) (n : nat) (E : cpp) (H : heap) (m : mem) (st : state)
           (T : tptr) (name : str) (vs : list value) : outcome (value * mem * state) :=
  do os <- function H T name;
  do r <- overloads_resolve H os (ret_value H) (map v_arg vs);
  match r with
  | Chosen f =>
    do g <- test_sig H f (ret_value H) (map v_arg vs);
    if grade_eqb g MNone then Abort else
    do (qs, st1) <- pass_all n E H st vs (f_args f);
    do m1 <- run_ctors m (st_next st) (skipn (length (st_log st)) (st_log st1));
    do (r2, res) <- B (f_code f) qs m1 (st_next st1);
    let '(m2, next2) := r2 in
    do (w, st2) <- wrap_ret (with_ref E res) H f qs (St next2 (st_log st1));
    Ok (w, match res with RNew d => mset m2 next2 d | _ => m2 end, st2)
  | _ => Abort
  end.
(* Type::construct(args...) *)
Definition mconstruct (B : body) (n : nat) (E : cpp) (H : heap) (m : mem) (st : state) (T : tptr) (vs : list value)
  : outcome (value * mem * state) :=
  match tget H T with None => UB | Some t => mtype_call B n E H m st T (t_id t) vs end.
