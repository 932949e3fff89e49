(* SpecPtr.v - what reflected raw and smart pointers should do (C71): who owns
   what, and when an object is deleted.  Refers to ModelPtr for nothing but the
   calls; the memory is that of ModelCont. *)
From Coq Require String.
Import String.StringSyntax.
From Verif Require Import Base ModelCore SpecCore ModelValue SpecValue ModelPlumb SpecPlumb ModelCont SpecCont ModelPtr.

(* o is a smart pointer that holds p *)
Definition smart_at (shared : bool) (m : mem) (o : nat) (p : option addr) : Prop :=
  if shared then exists c, m o = DShared p c else m o = DPtr p.
(* a designates an object that has not been deleted *)
Definition live (m : mem) (a : addr) : Prop := snd a = 0%N /\ exists d, m (fst a) = DData d.
(* one of the smart pointers os holds a *)
Definition owned (shared : bool) (m : mem) (os : list nat) (a : addr) : Prop :=
  exists o, In o os /\ smart_at shared m o (Some a).

Definition in_block (m : mem) (k : nat) (o : nat) : bool :=
  match m o with DShared _ (Some k') => Nat.eqb k' k | _ => false end.

(* os are all the smart pointers there are, and they are sound: what they hold is
   alive; a std::unique_ptr shares with none; the owners counted by the control block
   of a std::shared_ptr are all those that hold the object. *)
Record managed (shared : bool) (m : mem) (os : list nat) : Prop := {
  mg_distinct : NoDup os;
  mg_smart : forall o, In o os -> exists p, smart_at shared m o p;
  mg_alive : forall a, owned shared m os a -> live m a;
  mg_owners :
    if shared then
      (forall o p, In o os -> m o = DShared p None -> p = None) /\
      (forall o p k, In o os -> m o = DShared p (Some k) -> m k = DCtl (length (filter (in_block m k) os)) p) /\
      (forall o o' a c c', In o os -> In o' os -> m o = DShared (Some a) c -> m o' = DShared (Some a) c' -> c = c')
    else forall o o' a, In o os -> In o' os -> m o = DPtr (Some a) -> m o' = DPtr (Some a) -> o = o' }.

Inductive smartop :=
| SEmpty | SFrom (p : option addr) | SCopyOf (o : nat) | SMoveOf (o : nat)             (* new smart pointers *)
| SAssign (o x : nat) | SMoveAssign (o x : nat)
| SReset (o : nat) | SResetTo (o : nat) (p : option addr) | SRelease (o : nat)
| SGet (o : nat) | SBool (o : nat) | SDeref (o : nat) | SEq (o x : nat).

Definition makes (op : smartop) : bool :=
  match op with SEmpty | SFrom _ | SCopyOf _ | SMoveOf _ => true | _ => false end.

(* what the smart pointers hold afterwards; new: the one that was made *)
Definition held (m : mem) (o : nat) : option addr :=
  match m o with DShared p _ => p | DPtr p => p | _ => None end.
Definition upd (h : nat -> option addr) (o : nat) (p : option addr) : nat -> option addr :=
  fun x => if Nat.eqb x o then p else h x.
Definition held_after (op : smartop) (new : nat) (h : nat -> option addr) : nat -> option addr :=
  match op with
  | SEmpty => upd h new None
  | SFrom p => upd h new p
  | SCopyOf o => upd h new (h o)
  | SMoveOf o => upd (upd h o None) new (h o)
  | SAssign o x => upd h o (h x)
  | SMoveAssign o x => upd (upd h x None) o (h x)
  | SReset o => upd h o None
  | SResetTo o p => upd h o p
  | SRelease o => upd h o None
  | SGet _ | SBool _ | SDeref _ | SEq _ _ => h
  end.

(* p may be entrusted to a smart pointer: null, or a live object none of them holds *)
Definition adoptable (shared : bool) (m : mem) (os : list nat) (p : option addr) : Prop :=
  forall a, p = Some a -> live m a /\ ~ owned shared m os a.
(* what the caller has to ensure *)
Definition op_ok (shared : bool) (m : mem) (os : list nat) (op : smartop) : Prop :=
  match op with
  | SEmpty => True
  | SFrom p => adoptable shared m os p
  | SCopyOf o => shared = true /\ In o os
  | SMoveOf o => In o os
  | SAssign o x => shared = true /\ In o os /\ In x os
  | SMoveAssign o x => In o os /\ In x os
  | SReset o => In o os
  | SResetTo o p => In o os /\ adoptable shared m os p
  | SRelease o => shared = false /\ In o os
  | SGet o | SBool o => In o os
  | SDeref o => In o os /\ held m o <> None
  | SEq o x => In o os /\ In x os
  end.

(* x is a handle on a raw pointer holding p *)
Definition raw_handle (PP : tptr) (m : mem) (x : value) (p : option addr) : Prop :=
  v_type x = PP /\ m (fst (v_addr x)) = DPtr p.

(* the call that asks for the operation: the name and the Value arguments.  id, the
   name of the type, is that of its constructors. *)
Inductive asked (T PP : tptr) (id : str) (m : mem) : smartop -> str -> list value -> Prop :=
| Q_empty : asked T PP id m SEmpty id []
| Q_from x p : raw_handle PP m x p -> asked T PP id m (SFrom p) id [x]
| Q_copy x o : handle_to T o x -> ~ gives x -> asked T PP id m (SCopyOf o) id [x]
| Q_move x o : handle_to T o x -> gives x -> asked T PP id m (SMoveOf o) id [x]
| Q_assign v o x o' : mutable_handle T o v -> handle_to T o' x -> ~ gives x -> asked T PP id m (SAssign o o') (lit "operator=") [v; x]
| Q_move_assign v o x o' : mutable_handle T o v -> handle_to T o' x -> gives x -> asked T PP id m (SMoveAssign o o') (lit "operator=") [v; x]
| Q_reset v o : mutable_handle T o v -> asked T PP id m (SReset o) (lit "reset") [v]
| Q_reset_to v o x p : mutable_handle T o v -> raw_handle PP m x p -> asked T PP id m (SResetTo o p) (lit "reset") [v; x]
| Q_release v o : mutable_handle T o v -> asked T PP id m (SRelease o) (lit "release") [v]
| Q_get v o : handle_to T o v -> asked T PP id m (SGet o) (lit "get") [v]
| Q_bool v o : handle_to T o v -> asked T PP id m (SBool o) (lit "operator bool()") [v]
| Q_deref v o : handle_to T o v -> asked T PP id m (SDeref o) (lit "operator*") [v]
| Q_eq v o x o' : handle_to T o v -> handle_to T o' x -> asked T PP id m (SEq o o') (lit "operator==") [v; x].

(* w owns a raw pointer holding p *)
Definition owns_pointer (PP : tptr) (m : mem) (w : value) (p : option addr) : Prop :=
  v_arg w = Arg PP LValue false /\ v_stored w = true /\ snd (v_addr w) = 0%N /\ m (fst (v_addr w)) = DPtr p.
(* w owns the answer to a question *)
Definition answers (B : tptr) (m : mem) (w : value) (Q : Prop) : Prop :=
  exists n, owns_number B m w n /\ (n = 1%N /\ Q \/ n = 0%N /\ ~ Q).

(* w is what the operation gives back; m before, m' after *)
Definition op_result (H : heap) (T P PP B : tptr) (m m' : mem) (op : smartop) (w : value) : Prop :=
  match op with
  | SEmpty | SFrom _ | SCopyOf _ | SMoveOf _ =>
      v_arg w = Arg T LValue false /\ v_stored w = true /\ snd (v_addr w) = 0%N /\ m (fst (v_addr w)) = DNone
  | SAssign o _ | SMoveAssign o _ => v_arg w = Arg T LValue false /\ v_stored w = false /\ fst (v_addr w) = o
  | SReset _ | SResetTo _ _ => v_type w = h_void H
  | SRelease o | SGet o => owns_pointer PP m' w (held m o)
  | SBool o => answers B m' w (held m o <> None)
  | SDeref o => v_arg w = Arg P LValue false /\ v_stored w = false /\ held m o = Some (v_addr w)
  | SEq o x => answers B m' w (held m o = held m x)
  end.

(* the smart pointers afterwards *)
Definition os_after (op : smartop) (new : nat) (os : list nat) : list nat := if makes op then new :: os else os.

(* held before, by none afterwards, and not released *)
Definition let_go (shared : bool) (m m' : mem) (os os' : list nat) (released : Prop) (y : nat) : Prop :=
  owned shared m os (y, 0%N) /\ ~ owned shared m' os' (y, 0%N) /\ ~ released.
(* exactly the objects that were let go have been deleted, and nothing but smart
   pointers and control blocks has otherwise changed *)
Definition deletes_exactly (shared : bool) (m m' : mem) (os os' : list nat) (released : Prop) : Prop :=
  (forall y d, m y = DData d ->
     (let_go shared m m' os os' released y /\ m' y = DNone) \/ (~ let_go shared m m' os os' released y /\ m' y = DData d)) /\
  (forall y, ~ In y os -> (forall d, m y <> DData d) -> (forall n p, m y <> DCtl n p) -> m y <> DNone -> m' y = m y).
Definition releases (op : smartop) : Prop := exists o, op = SRelease o.

(* T is std::shared_ptr<P> or std::unique_ptr<P>, PP is P*, B bool, as their
   reflection leaves them; their callables are numbered from b and rb *)
Definition smart_name (shared : bool) (pid : str) : str :=
  (if shared then lit "std::shared_ptr" else lit "std::unique_ptr") ++ lit "<" ++ pid ++ lit ">".
Record smart_type (E : cpp) (H : heap) (shared : bool) (b rb : nat) (T P PP B : tptr) (pid : str) : Prop := {
  sm_wf : wf_heap H;
  sm_carries : carries H T (smart_name shared pid)
     ((if shared then sharedPtr else uniquePtr) (smart_name shared pid) T P PP B (h_void H) (Caps true shared true shared true) b);
  sm_raw : carries H PP (pid ++ lit "*") (rawPointer (pid ++ lit "*") PP P B (Caps true true true true true) rb);
  sm_pid : pid <> lit "operator";
  sm_apart : h_value H <> h_void H /\ T <> h_void H /\ T <> h_value H /\ PP <> h_void H /\ PP <> h_value H /\
             P <> h_void H /\ P <> h_value H /\ B <> h_void H /\ B <> h_value H;
  sm_valid : valid H P /\ valid H B;
  sm_cpp : cpp_movable E T = true /\ cpp_copyable E T = shared /\ cpp_movable E PP = true /\ cpp_copyable E PP = true /\
           cpp_copyable E B = true }.

(* the same for a raw pointer type alone *)
Record raw_type (E : cpp) (H : heap) (rb : nat) (P PP B : tptr) (pid : str) : Prop := {
  rt_wf : wf_heap H;
  rt_carries : carries H PP (pid ++ lit "*") (rawPointer (pid ++ lit "*") PP P B (Caps true true true true true) rb);
  rt_pid : pid <> lit "operator";
  rt_apart : h_value H <> h_void H /\ PP <> h_void H /\ PP <> h_value H /\
             P <> h_void H /\ P <> h_value H /\ B <> h_void H /\ B <> h_value H;
  rt_valid : valid H P /\ valid H B;
  rt_cpp : cpp_movable E PP = true /\ cpp_copyable E PP = true /\ cpp_copyable E B = true }.

(* a client: it makes objects and raw pointers, asks for operations, lets its smart
   pointers go; mine are the objects entrusted to them and not released since *)
Definition entrusted (op : smartop) (h : nat -> option addr) (mine : list nat) : list nat :=
  match op with
  | SFrom (Some a) | SResetTo _ (Some a) => fst a :: mine
  | SRelease o => match h o with Some a => filter (fun y => negb (Nat.eqb y (fst a))) mine | None => mine end
  | _ => mine
  end.
Record world := World { w_mem : mem; w_st : state; w_os : list nat; w_mine : list nat }.
Inductive step (E : cpp) (H : heap) (shared : bool) (b : nat) (T PP : tptr) (id : str) : world -> world -> Prop :=
| T_object m st os mine d :                       (* new P, T* p = ... *)
    (exists n, d = DData n) \/ (exists p, d = DPtr p) ->
    step E H shared b T PP id (World m st os mine)
      (World (mset m (st_next st) d) (St (S (st_next st)) (st_log st)) os mine)
| T_call m st os mine op name args w m' st' n :
    asked T PP id m op name args -> op_ok shared m os op ->
    mtype_call (smart_body shared b) (S (S n)) E H m st T name args = Ok (w, m', st') ->
    step E H shared b T PP id (World m st os mine)
      (World m' st' (os_after op (fst (v_addr w)) os) (entrusted op (held m) mine))
| T_destroy m st os mine o m' :
    In o os -> smart_destroy shared m o = Ok m' ->
    step E H shared b T PP id (World m st os mine) (World m' st (filter (fun x => negb (Nat.eqb x o)) os) mine).

(* what has been entrusted and not released is alive exactly while it is owned *)
Definition accounted (shared : bool) (w : world) : Prop :=
  managed shared (w_mem w) (w_os w) /\ unborn (w_mem w) (st_next (w_st w)) /\
  (forall a, owned shared (w_mem w) (w_os w) a -> In (fst a) (w_mine w)) /\
  (forall y, In y (w_mine w) ->
     (owned shared (w_mem w) (w_os w) (y, 0%N) /\ exists d, w_mem w y = DData d) \/
     (~ owned shared (w_mem w) (w_os w) (y, 0%N) /\ w_mem w y = DNone)).
