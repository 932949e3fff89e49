(* ModelRegistry.v - src/registry.{h,cpp}, src/dsl/template.h 17-24. *)
From Coq Require String.
Import String.StringSyntax.
From Verif Require Import Base ModelCore ModelScope.
Local Open Scope outcome_scope.

Definition lid := nat.        (* a loader: index in the program's table of loaders *)

(* What a loader (a std::function taking a Type, i.e. Reflect<T>::reflect, or a
   top level program) does to the registry.  What it does to the Type being
   loaded (fields, functions, parent) is the subject of ModelCore.v and does not
   interact with the registry. *)
Inductive action :=
| AGet (id : str)               (* reflect::type(id) *)
| AAdd (id : str) (l : lid)     (* Registry::add(id, loader) *)
| AAlias (id alias : str)       (* Registry::alias(id, alias) *)
| AUse (k : nat)                (* reflect::type<T>() for template instance k *)
| AFail.                        (* reflectError in the loader's own code *)

(* The loaders of the program and its template instances (id and loader of each:
   src/dsl/template.h 17-24, src/registry.h 39-46). *)
Record prog := Prog { p_loaders : list (list action); p_templates : list (str * lid) }.
Definition loader_code (P : prog) (l : lid) : list action := nth l (p_loaders P) [].

(* src/registry.cpp 20-27: RegistryState.  r_objs are the Type objects ever
   created, by identity (index), with their id (type.cpp: Type(id)); r_log records
   each loader invocation (ghost); r_flags are the static `loaded` flags of
   dsl/template.h 20.  Not modelled: the mutex, except in the section on threads
   below. *)
Record rstate := RState {
  r_types : list (str * tptr);
  r_aliases : list (str * str);
  r_loaders : list (str * lid);
  r_scopes : sheap;
  r_objs : list str;
  r_log : list (str * lid);
  r_flags : list nat }.
Definition rinit : rstate := RState [] [] [] sinit [] [] [].

Definition set_rtypes st x objs log := RState x (r_aliases st) (r_loaders st) (r_scopes st) objs log (r_flags st).
Definition set_raliases st x := RState (r_types st) x (r_loaders st) (r_scopes st) (r_objs st) (r_log st) (r_flags st).
Definition set_rloaders st x := RState (r_types st) (r_aliases st) x (r_scopes st) (r_objs st) (r_log st) (r_flags st).
Definition set_rscopes st x := RState (r_types st) (r_aliases st) (r_loaders st) x (r_objs st) (r_log st) (r_flags st).
Definition set_rflags st x := RState (r_types st) (r_aliases st) (r_loaders st) (r_scopes st) (r_objs st) (r_log st) x.

(* Operations return the state even when they fail: with REFLECT_USE_EXCEPTIONS
   the program may catch the error and go on (error.cpp 35-43). *)

(* src/registry.cpp 104-117: add(id, loader).  Simplifications: `!loader` (an
   empty std::function) does not occur; when the scope registration fails the
   scopes it already created are dropped. *)
Definition radd (st : rstate) (id : str) (l : lid) : rstate * outcome unit :=
  match id with
  | [] => (st, Abort)
  | _ =>
    let st1 := if ahas id (r_loaders st) then st                   (* emplace keeps the first *)
               else set_rloaders st (r_loaders st ++ [(id, l)]) in
    match addType (r_scopes st1) 0 id with
    | Ok S' => (set_rscopes st1 S', Ok tt)
    | Abort => (st1, Abort) | Throw => (st1, Throw) | UB => (st1, UB) | OutOfFuel => (st1, OutOfFuel)
    end
  end.

(* src/registry.cpp 119-135: alias(id, alias) *)
Definition ralias (st : rstate) (id al : str) : rstate * outcome unit :=
  match id, al with
  | [], _ | _, [] => (st, Abort)
  | _, _ => if ahas al (r_aliases st) then (st, Abort)
            else (set_raliases st (r_aliases st ++ [(al, id)]), Ok tt)
  end.

(* src/registry.cpp 58-62: one level of alias resolution *)
Definition resolve (st : rstate) (id : str) : str :=
  match afind id (r_aliases st) with Some id' => id' | None => id end.

(* src/registry.cpp 91-102, 81-84: erase the loader, create and add the Type, note
   the loader invocation of line 87 *)
Definition rnewtype (st : rstate) (id : str) (l : lid) : rstate :=
  set_rtypes (set_rloaders st (aerase id (r_loaders st)))
    (r_types st ++ [(id, length (r_objs st))]) (r_objs st ++ [id]) (r_log st ++ [(id, l)]).

(* The actions of a loader, in order, stopping at the first failure; g is get. *)
Fixpoint run_actions (g : rstate -> str -> rstate * outcome tptr) (P : prog) (st : rstate) (acts : list action)
  : rstate * outcome unit :=
  match acts with
  | [] => (st, Ok tt)
  | a :: acts' =>
    let '(st', r) :=
      match a with
      | AGet id => let '(st1, r) := g st id in (st1, do _ <- r; Ok tt)
      | AAdd id l => radd st id l
      | AAlias id al => ralias st id al
      | AUse k =>
        match nth_error (p_templates P) k with
        | None => (st, Ok tt)           (* no such template instance: nothing is called *)
        | Some (id, l) =>
          (* dsl/template.h 17-24: register once *)
          let '(st1, r1) := if existsb (Nat.eqb k) (r_flags st) then (st, Ok tt)
                            else radd (set_rflags st (k :: r_flags st)) id l in
          match r1 with
          | Ok _ => let '(st2, r2) := g st1 id in (st2, do _ <- r2; Ok tt)
          | _ => (st1, r1)
          end
        end
      | AFail => (st, Abort)
      end in
    match r with
    | Ok _ => run_actions g P st' acts'
    | _ => (st', r)
    end
  end.

(* src/registry.cpp 51-66: get, and 69-89: load.  n bounds the nesting of loads;
   c19_terminates proves that the bound used by `get` below is never reached. *)
Fixpoint get_f (n : nat) (P : prog) (st : rstate) (id0 : str) : rstate * outcome tptr :=
  match n with
  | O => (st, OutOfFuel)
  | Datatypes.S n' =>
    let id := resolve st id0 in
    match afind id (r_types st) with
    | Some t => (st, Ok t)
    | None =>
      match id with
      | [] => (st, Abort)                                           (* 72 *)
      | _ =>
        match afind id (r_loaders st) with
        | None => (st, Abort)                                       (* 77-78 *)
        | Some l =>
          let '(st', r) := run_actions (get_f n' P) P (rnewtype st id l) (loader_code P l) in
          (st', do _ <- r; Ok (length (r_objs st)))
        end
      end
    end
  end.

(* The ids that can ever have a loader. *)
Definition action_ids (a : action) : list str := match a with AAdd id _ => [id] | _ => [] end.
Definition universe (P : prog) (st : rstate) : list str :=
  akeys (r_loaders st) ++ flat_map (flat_map action_ids) (p_loaders P) ++ map fst (p_templates P).
Definition get (P : prog) (st : rstate) (id : str) : rstate * outcome tptr :=
  get_f (Datatypes.S (length (universe P st))) P st id.

(* A program: a sequence of top level actions; each failure is caught and the
   program goes on (with abort() instead it stops: that is a shorter history). *)
Definition step (P : prog) (st : rstate) (a : action) : rstate * outcome unit := run_actions (get P) P st [a].
Definition run (P : prog) (st : rstate) (h : list action) : rstate := fold_left (fun s a => fst (step P s a)) h st.

(* ---- threads ----
   Small steps of get/load: one step per access to a registry table (58-66, 76-87).
   The unmodelled part is the data race itself: here every table access is atomic. *)
Inductive frame :=
| KGet (id : str)                     (* 58-62: about to look at the aliases *)
| KType (id : str)                    (* 64-65: about to look at the types *)
| KLoad (id : str)                    (* 72-76: about to look at the loaders *)
| KErase (id : str) (l : lid)         (* 80-81: about to erase the loader *)
| KAdd (id : str) (l : lid)           (* 83-84: about to add the type *)
| KRun (t : tptr) (acts : list action). (* 87: running the loader *)

(* A thread: a stack of activations, or finished with a result. *)
Inductive thread := Running (ks : list frame) | Finished (r : outcome tptr).

Definition ret (t : tptr) (ks : list frame) : thread :=
  match ks with [] => Finished (Ok t) | _ => Running ks end.

Definition tstep (P : prog) (st : rstate) (ks : list frame) : rstate * thread :=
  match ks with
  | [] => (st, Finished UB)
  | KGet id :: ks' => (st, Running (KType (resolve st id) :: ks'))
  | KType id :: ks' =>
    match afind id (r_types st) with
    | Some t => (st, ret t ks')
    | None => (st, Running (KLoad id :: ks'))
    end
  | KLoad id :: ks' =>
    match id with
    | [] => (st, Finished Abort)
    | _ => match afind id (r_loaders st) with
           | None => (st, Finished Abort)
           | Some l => (st, Running (KErase id l :: ks'))
           end
    end
  | KErase id l :: ks' =>
    if ahas id (r_loaders st) then (set_rloaders st (aerase id (r_loaders st)), Running (KAdd id l :: ks'))
    else (st, Finished UB)                        (* erase of a dangling iterator *)
  | KAdd id l :: ks' =>
    if ahas id (r_types st) then (st, Finished Abort)          (* 100-101 *)
    else (set_rtypes st (r_types st ++ [(id, length (r_objs st))]) (r_objs st ++ [id]) (r_log st ++ [(id, l)]),
          Running (KRun (length (r_objs st)) (loader_code P l) :: ks'))
  | KRun t [] :: ks' => (st, ret t ks')
  | KRun t (a :: acts) :: ks' =>
    match a with
    | AGet id => (st, Running (KGet id :: KRun t acts :: ks'))
    | AAdd id l => let '(st', r) := radd st id l in
        (st', match r with Ok _ => Running (KRun t acts :: ks') | Abort => Finished Abort | Throw => Finished Throw
              | UB => Finished UB | OutOfFuel => Finished OutOfFuel end)
    | AAlias id al => let '(st', r) := ralias st id al in
        (st', match r with Ok _ => Running (KRun t acts :: ks') | Abort => Finished Abort | Throw => Finished Throw
              | UB => Finished UB | OutOfFuel => Finished OutOfFuel end)
    | AUse k =>
      match nth_error (p_templates P) k with
      | None => (st, Running (KRun t acts :: ks'))
      | Some (id, l) =>
        let '(st1, r1) := if existsb (Nat.eqb k) (r_flags st) then (st, Ok tt)
                          else radd (set_rflags st (k :: r_flags st)) id l in
        (st1, match r1 with Ok _ => Running (KGet id :: KRun t acts :: ks') | Abort => Finished Abort | Throw => Finished Throw
              | UB => Finished UB | OutOfFuel => Finished OutOfFuel end)
      end
    | AFail => (st, Finished Abort)
    end
  end.

(* The code as it is: lines 56, 112 and 127 construct and destroy a temporary
   lock_guard, so the mutex is free again before the first table access.  Any
   thread may take the next step. *)
Definition machine := (rstate * list thread)%type.
Fixpoint set_nth {A} (l : list A) (i : nat) (x : A) : list A :=
  match l, i with
  | [], _ => []
  | _ :: l', O => x :: l'
  | y :: l', Datatypes.S i' => y :: set_nth l' i' x
  end.
Inductive unlocked_step (P : prog) : machine -> machine -> Prop :=
| US st ths i ks st' th : nth_error ths i = Some (Running ks) -> tstep P st ks = (st', th) ->
    unlocked_step P (st, ths) (st', set_nth ths i th).

(* The evident intent: the lock is held from the beginning of the outermost get to
   its end (it has to be recursive: loaders call get).  The owner is the index of
   the thread that holds it. *)
Inductive locked_step (P : prog) : machine * option nat -> machine * option nat -> Prop :=
| LAcquire st ths i id : nth_error ths i = Some (Running [KGet id]) ->
    locked_step P ((st, ths), None) ((st, ths), Some i)
| LStep st ths i ks st' th : nth_error ths i = Some (Running ks) -> tstep P st ks = (st', th) ->
    locked_step P ((st, ths), Some i) ((st', set_nth ths i th), Some i)
| LRelease st ths i r : nth_error ths i = Some (Finished r) ->
    locked_step P ((st, ths), Some i) ((st, ths), None).

(* The naive repair with the existing std::mutex: each get takes the lock for its
   own duration; a loader's nested get then waits for its own thread. *)
Definition wants_lock (ks : list frame) : bool := match ks with KGet _ :: _ :: _ => true | _ => false end.
Inductive mutex_step (P : prog) : machine * option nat -> machine * option nat -> Prop :=
| MAcquire st ths i id : nth_error ths i = Some (Running [KGet id]) ->
    mutex_step P ((st, ths), None) ((st, ths), Some i)
| MStep st ths i ks st' th : nth_error ths i = Some (Running ks) -> wants_lock ks = false -> tstep P st ks = (st', th) ->
    mutex_step P ((st, ths), Some i) ((st', set_nth ths i th), Some i)
| MRelease st ths i r : nth_error ths i = Some (Finished r) ->
    mutex_step P ((st, ths), Some i) ((st, ths), None).

Inductive steps {A} (R : A -> A -> Prop) : A -> A -> Prop :=
| steps_refl a : steps R a a
| steps_cons a b c : R a b -> steps R b c -> steps R a c.
