(* SpecWorld.v - many containers at a time (C74): what making, copying, moving,
   assigning and using them does, where each container is a value of its own. *)
From Coq Require String.
Import String.StringSyntax.
From Coq Require Import Permutation.
From Verif Require Import Base ModelCore SpecCore ModelValue SpecValue ModelPlumb SpecPlumb ModelCont SpecCont ModelPtr.

(* which objects are containers, and what each holds *)
Definition world (A : Type) := nat -> option A.
Definition upd {A} (w : world A) (o : nat) (l : A) : world A := fun y => if Nat.eqb y o then Some l else w y.
Definition obj (v : value) : nat := fst (v_addr v).

(* a call of a client; in Make no object is given, in Copy one handle *)
Inductive ccall (op : Type) := Make | Copy_ (v : value) | Assign (v x : value) | Member (v : value) (o : op) (args : list value).
Arguments Make {op}. Arguments Copy_ {op}. Arguments Assign {op}. Arguments Member {op}.

(* the call, made: T's constructor with Type::construct, the others through a handle *)
Definition perform {op} (name : op -> str) (B : body) (n : nat) (E : cpp) (H : heap) (T : tptr) (m : mem) (st : state) (c : ccall op)
  : outcome (value * mem * state) :=
  match c with
  | Make => mconstruct B n E H m st T []
  | Copy_ v => mconstruct B n E H m st T [v]
  | Assign v x => mcall B n E H m st v (lit "operator=") [x]
  | Member v o args => mcall B n E H m st v (name o) args
  end.

(* w owns a new object of type T *)
Definition brand_new (T : tptr) (m : mem) (w : value) : Prop :=
  v_arg w = Arg T LValue false /\ v_stored w = true /\ m (obj w) = DNone /\ snd (v_addr w) = 0%N.

(* What the call does: given the containers W before, those after and the handle w it
   gives back.  A handle that gives its value away is moved from: its container is
   left empty.  Fn says what a member does to one container. *)
Inductive Effect {A op} (empty : A) (Fn : value -> A -> op -> A -> value -> Prop) (T : tptr) (m : mem) (W : world A) : ccall op -> world A -> value -> Prop :=
| Eff_make w : brand_new T m w -> Effect empty Fn T m W Make (upd W (obj w) empty) w
| Eff_copy v l w : W (obj v) = Some l -> ~ gives v -> brand_new T m w -> Effect empty Fn T m W (Copy_ v) (upd W (obj w) l) w
| Eff_move v l w : W (obj v) = Some l -> gives v -> brand_new T m w -> Effect empty Fn T m W (Copy_ v) (upd (upd W (obj v) empty) (obj w) l) w
| Eff_assign v x l w : W (obj x) = Some l -> ~ gives x -> v_arg w = v_arg v -> v_addr w = v_addr v -> v_stored w = false ->
    Effect empty Fn T m W (Assign v x) (upd W (obj v) l) w
| Eff_move_assign v x l w : W (obj x) = Some l -> gives x -> v_arg w = v_arg v -> v_addr w = v_addr v -> v_stored w = false ->
    Effect empty Fn T m W (Assign v x) (upd (upd W (obj x) empty) (obj v) l) w
| Eff_member v o args l l' w : W (obj v) = Some l -> Fn v l o l' w -> Effect empty Fn T m W (Member v o args) (upd W (obj v) l') w.

(* ----- maps ----- *)
(* the containers are maps, and share no value *)
Definition map_world (ordered : bool) (m : mem) (W : world (list (N * N))) : Prop :=
  (forall o l, W o = Some l -> is_map ordered m o l) /\
  (forall o1 o2 k1 k2 a, W o1 <> None -> W o2 <> None -> o1 <> o2 -> refers m o1 k1 a -> ~ refers m o2 k2 a).

(* the calls a client may make: handles to maps of the world, of the right kind; at
   with a key that is there; no map moved into itself *)
Definition map_call_ok (T X : tptr) (m : mem) (W : world (list (N * N))) (c : ccall mapop) : Prop :=
  match c with
  | Make => True
  | Copy_ v => v_type v = T /\ W (obj v) <> None
  | Assign v x => v_arg v = Arg T LValue false /\ v_type x = T /\ W (obj v) <> None /\ W (obj x) <> None /\ (gives x -> obj x <> obj v)
  | Member v op args => v_type v = T /\ (mapop_mutates op = true -> v_arg v = Arg T LValue false) /\
      Forall2 (fun x k => holds m x X k) args (mapop_args op) /\
      exists l, W (obj v) = Some l /\ forall k, op = MAt k -> In k (map fst l)
  end.

(* where the values of map o are after the call: nowhere if o was assigned to *)
Definition goes {op} (c : ccall op) (w : value) (o : nat) : option nat :=
  match c with
  | Copy_ v => if Nat.eqb o (obj v) then if ref_eqb (a_ref (v_arg v)) RValue && negb (a_const (v_arg v)) then Some (obj w) else Some o else Some o
  | Assign v x =>
      if Nat.eqb o (obj v) then None else
      if Nat.eqb o (obj x) then if ref_eqb (a_ref (v_arg x)) RValue && negb (a_const (v_arg x)) then Some (obj v) else Some o else Some o
  | _ => Some o
  end.
(* y is no map of the world and no value of one *)
Definition not_of (m : mem) (W : world (list (N * N))) (y : nat) : Prop :=
  W y = None /\ forall o k i, W o <> None -> ~ refers m o k (y, i).

(* a client at work: calls that are allowed, each returning, and what they do to the
   containers, one after the other *)
Inductive Session {A op} (ok : mem -> world A -> ccall op -> Prop) (empty : A) (Fn : value -> A -> op -> A -> value -> Prop) (T : tptr)
  (run : mem -> state -> ccall op -> outcome (value * mem * state)) :
  mem -> state -> world A -> mem -> state -> world A -> Prop :=
| Se_nil m st W : Session ok empty Fn T run m st W m st W
| Se_call m st W m1 st1 W1 c w m2 st2 W2 : Session ok empty Fn T run m st W m1 st1 W1 -> ok m1 W1 c ->
    run m1 st1 c = Ok (w, m2, st2) -> Effect empty Fn T m1 W1 c W2 w -> Session ok empty Fn T run m st W m2 st2 W2.
(* the same maps, up to the order of their pairs *)
Definition same_maps (W W' : world (list (N * N))) : Prop :=
  forall o, match W o, W' o with Some l, Some l' => Permutation l l' | None, None => True | _, _ => False end.
Definition map_member (ordered : bool) (d : N) (_ : value) (l : list (N * N)) (op : mapop) (l' : list (N * N)) (_ : value) : Prop :=
  exists r, MapDoes ordered d l op l' r.

(* ----- vectors ----- *)
Definition vec_world (m : mem) (W : world (list N)) : Prop :=
  (forall o l, W o = Some l -> contents m o l) /\
  (forall o1 o2, W o1 <> None -> W o2 <> None -> o1 <> o2 -> separate m o1 o2).
(* what is pushed with a handle that gives its value away lives outside the vector *)
Definition vec_call_ok (E : cpp) (H : heap) (T V Z : tptr) (m : mem) (W : world (list N)) (c : ccall vecop) : Prop :=
  match c with
  | Make => True
  | Copy_ v => v_type v = T /\ W (obj v) <> None
  | Assign v x => v_arg v = Arg T LValue false /\ v_type x = T /\ W (obj v) <> None /\ W (obj x) <> None /\ (gives x -> obj x <> obj v)
  | Member v op args => v_type v = T /\ (vecop_mutates op = true -> v_arg v = Arg T LValue false) /\
      Forall2 (fun x a => holds m x (fst a) (snd a)) args (vecop_args V Z op) /\
      (* nothing is moved out of one of the vectors *)
      (forall p x, op = OPush p -> args = [x] -> gives x ->
         (forall o, W o <> None -> o <> obj x /\ m o <> DVec (obj x)) /\ isMovable H V = Ok true /\ cpp_movable E V = true) /\
      exists l, W (obj v) = Some l /\ forall i, op = OIndex i \/ op = OAt i -> N.to_nat i < length l
  end.
Definition vec_member (d : N) (_ : value) (l : list N) (op : vecop) (l' : list N) (_ : value) : Prop := exists r, VecDoes d l op l' r.
(* y is no vector of the world and no buffer of one *)
Definition not_of_vec (m : mem) (W : world (list N)) (y : nat) : Prop :=
  W y = None /\ forall o, W o <> None -> m o <> DVec y.
(* the object a push_back moves from *)
Definition pushed (c : ccall vecop) (y : nat) : Prop :=
  match c with Member _ (OPush _) args => exists x, In x args /\ gives x /\ obj x = y | _ => False end.
