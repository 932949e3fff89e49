(* ModelValOwn.v - who owns the object behind a Value handle: the storage member
   of src/value.h 171-173 and everything in src/value.{tcc,cpp} that touches it.
   Types are names (nat); values of the objects are not modelled here, only which
   object a handle designates, who keeps it alive and when it is deleted. *)
From Verif Require Import Base.

Definition block := nat.

(* What a handle designates: an object of the caller, or (a part of) an object
   allocated by store(). *)
Inductive place := Outside (obj : nat) | Inside (b : block) (off : N).

(* src/value.h 171-173.  h_type: arg.type(); h_at: value_ (None = nullptr);
   h_own: storage, as the block its control block manages. *)
Record handle := Handle { h_type : nat; h_at : option place; h_own : option block }.
(* src/value.cpp 17-18: Value() *)
Definition void_type := 0.
Definition empty_handle : handle := Handle void_type None None.

(* An allocation of store() together with the shared_ptr control block made for it
   by storage.reset (value.tcc 75): use count and the type whose destructor the
   deleter runs. *)
Record cell := Cell { c_type : nat; c_deleter : nat; c_count : nat }.

(* An access to the object behind a handle: the block accessed (None: an object of
   the caller), whether the handle is stored, whether the block had been deleted. *)
Record access := Access { ac_block : option block; ac_stored : bool; ac_dead : bool }.

(* v_live: the Value objects alive, by name; v_next: the next name; v_cells: every
   allocation so far; v_freed: deletions in order, with the type deleted as. *)
Record vstate := VState {
  v_live : list (nat * handle);
  v_next : nat;
  v_cells : list cell;
  v_freed : list (block * nat);
  v_log : list access }.
Definition vinit : vstate := VState [] 0 [] [] [].

Inductive vop :=
| VDefault                    (* Value() *)
| VView (obj T : nat)         (* Value(obj), obj an lvalue of type T *)
| VStore (T : nat)            (* Value(T(...)), an rvalue of type T *)
| VCopyNew (s : nat)          (* Value(s) *)
| VMoveNew (s : nat)          (* Value(std::move(s)) *)
| VCopyAssign (d s : nat)     (* d = s *)
| VMoveAssign (d s : nat)     (* d = std::move(s) *)
| VToConst (s : nat)          (* s.toConst() *)
| VRvalue (s : nat)           (* s.rvalue() *)
| VSub (s : nat) (T : nat) (off : N)  (* s.field(...), or a call giving back a reference into s *)
| VCopy (s : nat)             (* s.copy() *)
| VMove (s : nat)             (* s.move() *)
| VAccess (s : nat)           (* s.get<T>(), s.as<T>(), a call on s *)
| VDestroy (s : nat).         (* ~Value *)

Fixpoint hfind (h : nat) (l : list (nat * handle)) : option handle :=
  match l with
  | [] => None
  | (k, r) :: l' => if Nat.eqb k h then Some r else hfind h l'
  end.
Definition hset (h : nat) (r : handle) (l : list (nat * handle)) : list (nat * handle) :=
  map (fun p => if Nat.eqb (fst p) h then (h, r) else p) l.
Definition hdel (h : nat) (l : list (nat * handle)) : list (nat * handle) :=
  filter (fun p => negb (Nat.eqb (fst p) h)) l.
Fixpoint set_count (l : list cell) (b : block) (n : nat) : list cell :=
  match l, b with
  | [], _ => []
  | c :: l', O => Cell (c_type c) (c_deleter c) n :: l'
  | c :: l', S b' => c :: set_count l' b' n
  end.
Definition count_of (st : vstate) (b : block) : nat :=
  match nth_error (v_cells st) b with Some c => c_count c | None => 0 end.

(* std::shared_ptr<void>: copying it raises the count, dropping it lowers the
   count and runs the deleter (value.tcc 29-36, ValueDestructor<T>) at zero. *)
Definition retain (st : vstate) (o : option block) : vstate :=
  match o with
  | None => st
  | Some b => VState (v_live st) (v_next st) (set_count (v_cells st) b (S (count_of st b))) (v_freed st) (v_log st)
  end.
Definition release (st : vstate) (o : option block) : vstate :=
  match o with
  | None => st
  | Some b =>
    match nth_error (v_cells st) b with
    | None => st
    | Some c =>
      VState (v_live st) (v_next st) (set_count (v_cells st) b (c_count c - 1))
        (if Nat.eqb (c_count c) 1 then v_freed st ++ [(b, c_deleter c)] else v_freed st) (v_log st)
    end
  end.
Definition with_live (st : vstate) (l : list (nat * handle)) : vstate :=
  VState l (v_next st) (v_cells st) (v_freed st) (v_log st).
(* A new Value object; whatever it owns has been counted already. *)
Definition push (st : vstate) (r : handle) : vstate :=
  VState ((v_next st, r) :: v_live st) (S (v_next st)) (v_cells st) (v_freed st) (v_log st).

(* src/value.tcc 38-48 and 63-81: a new object of type T with a fresh control
   block whose deleter is ValueDestructor<CleanT>; the handle is an lvalue onto it. *)
Definition store (st : vstate) (T : nat) : vstate :=
  let b := length (v_cells st) in
  push (VState (v_live st) (v_next st) (v_cells st ++ [Cell T T 1]) (v_freed st) (v_log st))
       (Handle T (Some (Inside b 0%N)) (Some b)).

(* A copy of the handle r: src/value.cpp 24-37 *)
Definition copy_handle (st : vstate) (r : handle) : vstate :=
  push (retain st (h_own r)) (Handle (h_type r) (h_at r) (h_own r)).

(* The end of a Value: ~Value drops storage *)
Definition destroy (st : vstate) (h : nat) (r : handle) : vstate :=
  release (with_live st (hdel h (v_live st))) (h_own r).

(* Reading or writing the object behind r. *)
Definition touch (st : vstate) (r : handle) : outcome vstate :=
  match h_at r with
  | None => Abort   (* a void handle: no type to read it as *)
  | Some (Outside _) =>
    Ok (VState (v_live st) (v_next st) (v_cells st) (v_freed st)
          (v_log st ++ [Access None (match h_own r with Some _ => true | None => false end) false]))
  | Some (Inside b _) =>
    Ok (VState (v_live st) (v_next st) (v_cells st) (v_freed st)
          (v_log st ++ [Access (Some b) (match h_own r with Some _ => true | None => false end)
                               (existsb (Nat.eqb b) (map fst (v_freed st)))]))
  end.

Local Open Scope outcome_scope.
Definition get_handle (st : vstate) (h : nat) : outcome handle :=
  match hfind h (v_live st) with Some r => Ok r | None => UB end.

Definition vstep (st : vstate) (op : vop) : outcome vstate :=
  match op with
  | VDefault => Ok (push st empty_handle)                          (* value.cpp 17-18 *)
  | VView obj T => Ok (push st (Handle T (Some (Outside obj)) None))  (* value.tcc 63-69 *)
  | VStore T => Ok (store st T)                                    (* value.tcc 70-81 *)
  | VCopyNew s => do r <- get_handle st s; Ok (copy_handle st r)   (* value.cpp 24-37 *)
  | VMoveNew s =>                                                  (* value.cpp 51-56 *)
    do r <- get_handle st s;
    let st1 := with_live st (hset s (Handle (h_type r) (h_at r) None) (v_live st)) in
    Ok (push st1 r)
  | VCopyAssign d s =>                                             (* value.cpp 39-49 *)
    if Nat.eqb d s then Ok st else
    do rd <- get_handle st d;
    do rs <- get_handle st s;
    let st1 := retain st (h_own rs) in
    let st2 := with_live st1 (hset d (Handle (h_type rs) (h_at rs) (h_own rs)) (v_live st1)) in
    Ok (release st2 (h_own rd))
  | VMoveAssign d s =>                                             (* value.cpp 58-68 *)
    if Nat.eqb d s then Ok st else
    do rd <- get_handle st d;
    do rs <- get_handle st s;
    let st1 := with_live st (hset s (Handle (h_type rs) (h_at rs) None) (hset d rs (v_live st))) in
    Ok (release st1 (h_own rd))
  | VToConst s | VRvalue s =>                                      (* value.cpp 108-124 *)
    do r <- get_handle st s; Ok (copy_handle st r)
  | VSub s T off =>                                                (* value.tcc 119-132; value_function.h 94-102 *)
    do r <- get_handle st s;
    match h_at r with
    | None => Abort
    | Some (Outside o) => Ok (push st (Handle T (Some (Outside o)) None))
    | Some (Inside b o) => Ok (push st (Handle T (Some (Inside b (o + off)%N)) None))
    end
  | VCopy s =>                                                     (* value.cpp 86-94 *)
    do r <- get_handle st s;
    do st1 <- touch st r;
    Ok (store st1 (h_type r))
  | VMove s =>                                                     (* value.cpp 96-106 *)
    do r <- get_handle st s;
    let tmp := v_next st in
    let st1 := copy_handle st r in                                   (* Value arg = rvalue() *)
    let st2 := with_live st1 (hset s empty_handle (v_live st1)) in   (* *this = Value() *)
    let st3 := release st2 (h_own r) in
    do st4 <- touch st3 r;                                           (* arg.type()->construct(arg) *)
    let st5 := store st4 (h_type r) in
    Ok (destroy st5 tmp r)                                           (* arg goes out of scope *)
  | VAccess s => do r <- get_handle st s; touch st r
  | VDestroy s => do r <- get_handle st s; Ok (destroy st s r)
  end.

(* A C++ program: every operation names Values that are alive. *)
Fixpoint vrun (st : vstate) (ops : list vop) : outcome vstate :=
  match ops with
  | [] => Ok st
  | op :: ops' => do st' <- vstep st op; vrun st' ops'
  end.
