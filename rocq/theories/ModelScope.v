(* ModelScope.v - src/scope.{h,cpp}: qualified names and the tree of scopes. *)
From Coq Require String.
Import String.StringSyntax.
From Verif Require Import Base ModelCore.
Local Open Scope outcome_scope.

Definition ch_colon : byte := 58%N.
Definition ch_lt : byte := 60%N.
Definition ch_gt : byte := 62%N.

(* src/scope.cpp 18-44: Scope::head.  `acc` is name[0..i) reversed, `rest` is
   name[i..).  Simplification: `nesting` is a size_t in the code (it wraps below
   zero); here it is an integer.  As |nesting| <= name.size() < 2^64 it is zero in
   one exactly when it is zero in the other, and only its being zero is tested. *)
Fixpoint head_scan (nesting : Z) (acc rest : str) : outcome (str * str) :=
  match rest with
  | [] => if Z.eqb nesting 0 then Ok (rev acc, []) else Abort              (* 42-43 *)
  | c :: r =>
    if N.eqb c ch_lt then head_scan (nesting + 1) (c :: acc) r               (* 29 *)
    else if N.eqb c ch_gt then head_scan (nesting - 1) (c :: acc) r          (* 30 *)
    else if N.eqb c ch_colon then
      if negb (Z.eqb nesting 0) then head_scan nesting (c :: acc) r          (* 32 *)
      else match r with
           | c' :: t => if N.eqb c' ch_colon then Ok (rev acc, t) else Abort (* 33-37, 43 *)
           | [] => Abort                                                     (* 33-34 *)
           end
    else head_scan nesting (c :: acc) r
  end.
Definition head (name : str) : outcome (str * str) := head_scan 0 [] name.

(* src/scope.cpp 46-74: Scope::tail.  `rest` is name[0..i) reversed, `acc` is
   name[i..).  Same simplification on `nesting`. *)
Fixpoint tail_scan (nesting : Z) (acc rest : str) : outcome (str * str) :=
  match rest with
  | [] => if Z.eqb nesting 0 then Ok (acc, []) else Abort
  | c :: r =>
    if N.eqb c ch_lt then tail_scan (nesting - 1) (c :: acc) r
    else if N.eqb c ch_gt then tail_scan (nesting + 1) (c :: acc) r
    else if N.eqb c ch_colon then
      if negb (Z.eqb nesting 0) then tail_scan nesting (c :: acc) r
      else match r with
           | c' :: t => if N.eqb c' ch_colon then Ok (acc, rev t) else Abort
           | [] => Abort
           end
    else tail_scan nesting (c :: acc) r
  end.
Definition tail (name : str) : outcome (str * str) := tail_scan 0 [] (rev name).

(* src/scope.cpp 76-81: Scope::join *)
Definition join (h t : str) : str := match h with [] => t | _ => h ++ lit "::" ++ t end.

(* src/scope.h 20-78: a Scope object.  A `Scope*` is an index in the list of all
   scope objects (scopes are never destroyed).  Traits are not modelled. *)
Definition sptr := nat.
Record scoperec := Scope_ {
  s_name : str;
  s_parent : option sptr;
  s_scopes : list (str * sptr);
  s_types : list (str * option tptr);     (* None: not loaded yet (287) *)
  s_fns : list (str * overloads) }.
Definition sheap := list scoperec.
Definition sget (S : sheap) (p : sptr) : option scoperec := nth_error S p.
Fixpoint supd (S : sheap) (p : sptr) (s : scoperec) : sheap :=
  match S, p with
  | [], _ => []
  | _ :: S', O => s :: S'
  | x :: S', Datatypes.S p' => x :: supd S' p' s
  end.

(* src/scope.cpp 88-90: the global scope; registry.cpp 26 *)
Definition newScope (name : str) (parent : option sptr) : scoperec := Scope_ name parent [] [] [].
Definition sinit : sheap := [newScope [] None].

Definition set_scopes (s : scoperec) x := Scope_ (s_name s) (s_parent s) x (s_types s) (s_fns s).
Definition set_types (s : scoperec) x := Scope_ (s_name s) (s_parent s) (s_scopes s) x (s_fns s).
Definition set_sfns (s : scoperec) x := Scope_ (s_name s) (s_parent s) (s_scopes s) (s_types s) x.

(* src/scope.cpp 97-103: Scope::id *)
Fixpoint scope_id_f (n : nat) (S : sheap) (this : sptr) : outcome str :=
  match n with
  | O => OutOfFuel
  | Datatypes.S n' =>
    match sget S this with
    | None => UB
    | Some s =>
      match s_parent s with
      | None => Ok []
      | Some p => do pid <- scope_id_f n' S p; Ok (join pid (s_name s))
      end
    end
  end.
Definition scope_id (S : sheap) := scope_id_f (Datatypes.S (length S)) S.

(* src/scope.cpp 149-160: scopes(), in map iteration order *)
Definition scopes_ (S : sheap) (this : sptr) : outcome (list str) :=
  match sget S this with None => UB | Some s => Ok (akeys (s_scopes s)) end.

(* The recursions below consume the name: each step drops at least the two
   characters of the separator, so length of the name + 1 is enough fuel
   (proved: head_progress). *)

(* src/scope.cpp 162-172: hasScope *)
Fixpoint hasScope_f (n : nat) (S : sheap) (this : sptr) (name : str) : outcome bool :=
  match n with
  | O => OutOfFuel
  | Datatypes.S n' =>
    do (h, t) <- head name;
    match sget S this with
    | None => UB
    | Some s =>
      match afind h (s_scopes s) with
      | None => Ok false
      | Some p => match t with [] => Ok true | _ => hasScope_f n' S p t end
      end
    end
  end.
Definition hasScope (S : sheap) (this : sptr) (name : str) := hasScope_f (Datatypes.S (length name)) S this name.

(* src/scope.cpp 174-185: scope(name) const *)
Fixpoint scope_c_f (n : nat) (S : sheap) (this : sptr) (name : str) : outcome sptr :=
  match n with
  | O => OutOfFuel
  | Datatypes.S n' =>
    do (h, t) <- head name;
    match sget S this with
    | None => UB
    | Some s =>
      match afind h (s_scopes s) with
      | None => Abort
      | Some p => match t with [] => Ok p | _ => scope_c_f n' S p t end
      end
    end
  end.
Definition scope_c (S : sheap) (this : sptr) (name : str) := scope_c_f (Datatypes.S (length name)) S this name.

(* src/scope.cpp 187-200: scope(name), creating what is missing *)
Fixpoint scope_f (n : nat) (S : sheap) (this : sptr) (name : str) : outcome (sheap * sptr) :=
  match n with
  | O => OutOfFuel
  | Datatypes.S n' =>
    do (h, t) <- head name;
    match sget S this with
    | None => UB
    | Some s =>
      let '(S', p) :=
        match afind h (s_scopes s) with
        | Some p => (S, p)
        | None =>
          let p := length S in
          (supd S this (set_scopes s (s_scopes s ++ [(h, p)])) ++ [newScope h (Some this)], p)
        end in
      match t with [] => Ok (S', p) | _ => scope_f n' S' p t end
    end
  end.
Definition scope (S : sheap) (this : sptr) (name : str) := scope_f (Datatypes.S (length name)) S this name.

(* src/scope.cpp 207-228: types(includeScopes) *)
Fixpoint types_f (n : nat) (S : sheap) (this : sptr) (includeScopes : bool) : outcome (list str) :=
  match n with
  | O => OutOfFuel
  | Datatypes.S n' =>
    match sget S this with
    | None => UB
    | Some s =>
      if negb includeScopes then Ok (akeys (s_types s)) else
      (fix go (l : list (str * sptr)) (acc : list str) : outcome (list str) :=
         match l with
         | [] => Ok acc
         | (k, p) :: l' =>
           do ts <- types_f n' S p true;
           go l' (acc ++ map (join k) ts)
         end) (s_scopes s) (akeys (s_types s))
    end
  end.
Definition types (S : sheap) := types_f (Datatypes.S (length S)) S.

(* src/scope.cpp 319-340: functions(includeScopes) *)
Fixpoint sfunctions_f (n : nat) (S : sheap) (this : sptr) (includeScopes : bool) : outcome (list str) :=
  match n with
  | O => OutOfFuel
  | Datatypes.S n' =>
    match sget S this with
    | None => UB
    | Some s =>
      if negb includeScopes then Ok (akeys (s_fns s)) else
      (fix go (l : list (str * sptr)) (acc : list str) : outcome (list str) :=
         match l with
         | [] => Ok acc
         | (k, p) :: l' =>
           do ts <- sfunctions_f n' S p true;
           go l' (acc ++ map (join k) ts)
         end) (s_scopes s) (akeys (s_fns s))
    end
  end.
Definition sfunctions (S : sheap) := sfunctions_f (Datatypes.S (length S)) S.

(* src/scope.cpp 230-250: hasType *)
Fixpoint hasType_f (n : nat) (S : sheap) (this : sptr) (name : str) : outcome bool :=
  match n with
  | O => OutOfFuel
  | Datatypes.S n' =>
    do (h, t) <- head name;
    match sget S this with
    | None => UB
    | Some s =>
      match afind h (s_types s) with
      | None =>
        match t with
        | [] => Ok false
        | _ =>
          match afind h (s_scopes s) with
          | None => Ok false
          | Some p => hasType_f n' S p t
          end
        end
      | Some _ => match t with [] => Ok true | _ => Abort end
      end
    end
  end.
Definition hasType (S : sheap) (this : sptr) (name : str) := hasType_f (Datatypes.S (length name)) S this name.

(* src/scope.cpp 252-276: type(name).  `load` is reflect::type(id) (the registry
   lookup, modelled in ModelRegistry.v); its side effects on the scopes are not
   modelled here.  Returns the cached or loaded type and the updated cache. *)
Fixpoint stype_f (n : nat) (load : str -> outcome tptr) (S : sheap) (this : sptr) (name : str)
  : outcome (sheap * tptr) :=
  match n with
  | O => OutOfFuel
  | Datatypes.S n' =>
    do (h, t) <- head name;
    match sget S this with
    | None => UB
    | Some s =>
      match afind h (s_types s) with
      | None =>
        match t with
        | [] => Abort
        | _ =>
          match afind h (s_scopes s) with
          | None => Abort
          | Some p => stype_f n' load S p t
          end
        end
      | Some cached =>
        do (S', ty) <-
          match cached with
          | Some ty => Ok (S, ty)
          | None =>
            do id <- scope_id S this;
            do ty <- load (join id h);
            Ok (supd S this (set_types s (aset h (Some ty) (s_types s))), ty)
          end;
        match t with [] => Ok (S', ty) | _ => Abort end
      end
    end
  end.
Definition stype load (S : sheap) (this : sptr) (name : str) := stype_f (Datatypes.S (length name)) load S this name.

(* src/scope.cpp 279-300: addType.  `scope(split.first)` at 299 re-splits the
   first component, hence the call to scope. *)
Fixpoint addType_f (n : nat) (S : sheap) (this : sptr) (name : str) : outcome sheap :=
  match n with
  | O => OutOfFuel
  | Datatypes.S n' =>
    do (h, t) <- head name;
    match sget S this with
    | None => UB
    | Some s =>
      match t with
      | [] => (* emplace keeps an existing entry *)
        Ok (if ahas h (s_types s) then S else supd S this (set_types s (s_types s ++ [(h, None)])))
      | _ =>
        if ahas h (s_types s) then Abort else
        if ahas h (s_fns s) then Abort else
        do (S', p) <- scope S this h;
        addType_f n' S' p t
      end
    end
  end.
Definition addType (S : sheap) (this : sptr) (name : str) := addType_f (Datatypes.S (length name)) S this name.

(* src/scope.cpp 307-317: addFunction.  H is the type heap of the overload check.
   The nested call of line 314 has a name without separator; fuel 2 suffices
   (proved). *)
Fixpoint saddFunction_f (n : nat) (H : heap) (S : sheap) (this : sptr) (name : str) (f : fn) : outcome sheap :=
  match n with
  | O => OutOfFuel
  | Datatypes.S n' =>
    do (h, t) <- tail name;
    match t with
    | _ :: _ =>
      do (S', p) <- scope S this t;
      saddFunction_f n' H S' p h f
    | [] =>
      match sget S this with
      | None => UB
      | Some s =>
        do os <- overloads_add H (match afind h (s_fns s) with Some os => os | None => [] end) f;
        Ok (supd S this (set_sfns s (aset h os (s_fns s))))
      end
    end
  end.
Definition saddFunction H (S : sheap) (this : sptr) (name : str) f :=
  saddFunction_f (Datatypes.S (length name)) H S this name f.

(* src/scope.cpp 342-353: hasFunction (const: missing scopes are an error) *)
Fixpoint shasFunction_f (n : nat) (S : sheap) (this : sptr) (name : str) : outcome bool :=
  match n with
  | O => OutOfFuel
  | Datatypes.S n' =>
    do (h, t) <- tail name;
    match t with
    | _ :: _ => do p <- scope_c S this t; shasFunction_f n' S p h
    | [] => match sget S this with None => UB | Some s => Ok (ahas h (s_fns s)) end
    end
  end.
Definition shasFunction (S : sheap) (this : sptr) (name : str) := shasFunction_f (Datatypes.S (length name)) S this name.

(* src/scope.cpp 355-376: function (both overloads: the const one casts const
   away, so looking a function up creates missing scopes) *)
Fixpoint sfunction_f (n : nat) (S : sheap) (this : sptr) (name : str) : outcome (sheap * overloads) :=
  match n with
  | O => OutOfFuel
  | Datatypes.S n' =>
    do (h, t) <- tail name;
    match t with
    | _ :: _ => do (S', p) <- scope S this t; sfunction_f n' S' p h
    | [] =>
      match sget S this with
      | None => UB
      | Some s => match afind h (s_fns s) with Some os => Ok (S, os) | None => Abort end
      end
    end
  end.
Definition sfunction (S : sheap) (this : sptr) (name : str) := sfunction_f (Datatypes.S (length name)) S this name.

(* Histories: public operations on any scope object, each successful (a failing
   one ends the process or leaves the program's control flow). *)
Inductive scope_op :=
| OpScope (this : sptr) (name : str)
| OpAddType (this : sptr) (name : str)
| OpAddFunction (H : heap) (this : sptr) (name : str) (f : fn)
| OpFunction_ (this : sptr) (name : str)
| OpType (load : str -> outcome tptr) (this : sptr) (name : str). (* load: what reflect::type answers at that moment *)

Definition scope_step (S : sheap) (op : scope_op) : outcome sheap :=
  match op with
  | OpScope this name => do (S', _) <- scope S this name; Ok S'
  | OpAddType this name => addType S this name
  | OpAddFunction H this name f => saddFunction H S this name f
  | OpFunction_ this name => do (S', _) <- sfunction S this name; Ok S'
  | OpType load this name => do (S', _) <- stype load S this name; Ok S'
  end.

Fixpoint scope_run (S : sheap) (ops : list scope_op) : outcome sheap :=
  match ops with
  | [] => Ok S
  | op :: ops' => do S' <- scope_step S op; scope_run S' ops'
  end.
