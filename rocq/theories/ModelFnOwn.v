(* ModelFnOwn.v - who owns the callable behind a reflected Function:
   src/function.h/.tcc/.cpp, src/value_function.h/.cpp *)
From Verif Require Import Base.

(* A heap block holding a ValueFunction, made by makeValueFunction (malloc +
   placement new) and released by freeValueFunction (->free() then free()). *)
Definition block := nat.

(* f_objs: every Function object ever constructed, with its member `fn`
   (None = nullptr); f_live: not yet destroyed; f_heap: blocks allocated so far
   (0 .. f_heap-1); f_freed: the blocks released, in order (with repetitions if a
   block were released twice); f_used: blocks through which a call was made, with
   whether the block was already released at that time. *)
Record fstate := FState {
  f_objs : list (option block);
  f_live : list nat;
  f_heap : nat;
  f_freed : list block;
  f_used : list (block * bool);
}.
Definition finit : fstate := FState [] [] 0 [] [].

Fixpoint upd {A} (l : list A) (i : nat) (x : A) : list A :=
  match l, i with
  | [], _ => []
  | _ :: l', O => x :: l'
  | y :: l', Datatypes.S i' => y :: upd l' i' x
  end.

Inductive fop :=
| FNew                      (* Function(name, fn) *)
| FMoveNew (src : nat)      (* Function(std::move(src)) *)
| FMoveAssign (dst src : nat) (* dst = std::move(src) *)
| FDestroy (o : nat)        (* ~Function *)
| FCall (o : nat).          (* call, after the signature test passed *)

Definition objects_of (op : fop) : list nat :=
  match op with FNew => [] | FMoveNew s => [s] | FMoveAssign d s => [d; s] | FDestroy o => [o] | FCall o => [o] end.

Definition fnOf (st : fstate) (o : nat) : option block := nth o (f_objs st) None.

(* freeValueFunction, src/value_function.cpp 21-29 *)
Definition freeBlock (st : fstate) (b : option block) : fstate :=
  match b with
  | None => st
  | Some b => FState (f_objs st) (f_live st) (f_heap st) (f_freed st ++ [b]) (f_used st)
  end.

Definition fstep (st : fstate) (op : fop) : outcome fstate :=
  match op with
  | FNew =>  (* function.tcc 117-126; value_function.tcc makeValueFunction *)
    Ok (FState (f_objs st ++ [Some (f_heap st)]) (length (f_objs st) :: f_live st) (Datatypes.S (f_heap st)) (f_freed st) (f_used st))
  | FMoveNew s => (* function.cpp 19-27 *)
    Ok (FState (upd (f_objs st) s None ++ [fnOf st s]) (length (f_objs st) :: f_live st) (f_heap st) (f_freed st) (f_used st))
  | FMoveAssign d s => (* function.cpp 29-43: the old fn of d is not released *)
    if Nat.eqb d s then Ok st
    else Ok (FState (upd (upd (f_objs st) d (fnOf st s)) s None) (f_live st) (f_heap st) (f_freed st) (f_used st))
  | FDestroy o => (* function.cpp 45-49 *)
    let st' := freeBlock st (fnOf st o) in
    Ok (FState (f_objs st') (remove Nat.eq_dec o (f_live st')) (f_heap st') (f_freed st') (f_used st'))
  | FCall o => (* function.tcc 163-169: *static_cast<Fn*>(fn) *)
    match fnOf st o with
    | None => UB
    | Some b => Ok (FState (f_objs st) (f_live st) (f_heap st) (f_freed st) (f_used st ++ [(b, existsb (Nat.eqb b) (f_freed st))]))
    end
  end.

(* A C++ program: every operation names objects that are alive. *)
Fixpoint frun (st : fstate) (ops : list fop) : outcome fstate :=
  match ops with
  | [] => Ok st
  | op :: ops' =>
    if forallb (fun o => existsb (Nat.eqb o) (f_live st)) (objects_of op)
    then bind (fstep st op) (fun st' => frun st' ops')
    else UB
  end.

(* src/function.cpp 29-43 with the missing release of the overwritten callable. *)
Definition fstep_fixed (st : fstate) (op : fop) : outcome fstate :=
  match op with
  | FMoveAssign d s => if Nat.eqb d s then Ok st else fstep (freeBlock st (fnOf st d)) op
  | _ => fstep st op
  end.
Fixpoint frun_fixed (st : fstate) (ops : list fop) : outcome fstate :=
  match ops with
  | [] => Ok st
  | op :: ops' =>
    if forallb (fun o => existsb (Nat.eqb o) (f_live st)) (objects_of op)
    then bind (fstep_fixed st op) (fun st' => frun_fixed st' ops')
    else UB
  end.
