(* SpecPlain.v - what reflected numbers, strings and plain classes should do (C72):
   the value at each address, and integer arithmetic on Z. *)
From Coq Require String.
Import String.StringSyntax.
From Verif Require Import Base ModelCore SpecCore ModelValue SpecValue ModelPlumb SpecPlumb ModelCont SpecCont ModelPtr SpecPtr ModelPlain.

(* the number p represents: its own value, or that minus 2^bits for a negative one *)
Definition in_range (bits : N) (signed : bool) (z : Z) : Prop :=
  if signed then (- 2 ^ (Z.of_N bits - 1) <= z < 2 ^ (Z.of_N bits - 1))%Z else (0 <= z < 2 ^ Z.of_N bits)%Z.
Definition represents (bits : N) (signed : bool) (p : N) (z : Z) : Prop :=
  in_range bits signed z /\ (Z.of_N p = z \/ (z < 0 /\ Z.of_N p = z + 2 ^ Z.of_N bits)%Z).
(* the C++ type of the sum of two numbers of the type: int if the type is smaller *)
Definition sum_type (bits : N) (signed : bool) : N * bool := if N.ltb bits 32 then (32%N, true) else (bits, signed).
(* r is the sum of p and q: exact, or modulo 2^bits for unsigned types *)
Definition is_sum (ar : arith) (p q r : N) : Prop :=
  match ar with
  | AFloat add => r = add p q
  | AInt bits signed =>
      let '(rb, rs) := sum_type bits signed in
      forall x y, represents bits signed p x -> represents bits signed q y ->
      exists z, represents rb rs r z /\ if rs then z = (x + y)%Z else exists k, z = (x + y + k * 2 ^ Z.of_N rb)%Z
  end.
(* the sum fits *)
Definition sum_fits (ar : arith) (p q : N) : Prop :=
  match ar with
  | AFloat _ => True
  | AInt bits signed =>
      let '(rb, rs) := sum_type bits signed in
      exists x y, represents bits signed p x /\ represents bits signed q y /\ (rs = true -> in_range rb rs (x + y))
  end.

Inductive plainop :=
| PNew | PCopyOf (x : addr) | PMoveOf (x : addr)                       (* new objects *)
| PAssign (a x : addr) | PMoveAssign (a x : addr)
| PAlloc | PAllocCopy (x : addr) | PAllocMove (x : addr)               (* new objects on the free store *)
| PPlus (a x : addr) | PSize (a : addr).

Definition same (a c : addr) : bool := Nat.eqb (fst a) (fst c) && N.eqb (snd a) (snd c).
(* the value at each address *)
Definition store := addr -> option N.
Definition put (h : store) (a : addr) (p : option N) : store := fun c => if same c a then p else h c.
(* what the operation does to the objects there were *)
Definition after (K : plain) (op : plainop) (h : store) : store :=
  let left x := option_map (p_moved K) (h x) in
  match op with
  | PAssign a x => put h a (h x)
  | PMoveAssign a x => put (put h a (h x)) x (left x)
  | PMoveOf x | PAllocMove x => put h x (left x)
  | _ => h
  end.
(* the value of the object it makes, where new T leaves raw *)
Definition made (K : plain) (raw : N) (op : plainop) (h : store) : option N :=
  match op with
  | PNew => Some (p_dflt K)
  | PCopyOf x | PMoveOf x | PAllocCopy x | PAllocMove x => h x
  | PAlloc => Some raw
  | _ => None
  end.
Definition touched (op : plainop) (a : addr) : Prop :=
  match op with
  | PAssign c _ => a = c
  | PMoveAssign c x => a = c \/ a = x
  | PMoveOf x | PAllocMove x => a = x
  | _ => False
  end.

(* the members a type has *)
Definition offers (x : more) (op : plainop) : Prop :=
  match op, x with
  | (PAllocCopy _ | PAllocMove _), XClass => True
  | PPlus _ _, XNumber _ => True
  | PSize _, XString _ => True
  | (PAllocCopy _ | PAllocMove _ | PPlus _ _ | PSize _), _ => False
  | _, _ => True
  end.
Definition reads (op : plainop) : list addr :=
  match op with
  | PNew | PAlloc => []
  | PCopyOf x | PMoveOf x | PAllocCopy x | PAllocMove x | PSize x => [x]
  | PAssign a x | PMoveAssign a x | PPlus a x => [a; x]
  end.
(* what the caller has to ensure: the operands exist, and a signed sum fits *)
Definition plain_ok (x : more) (h : store) (op : plainop) : Prop :=
  offers x op /\ Forall (fun a => h a <> None) (reads op) /\
  match op, x with
  | PPlus a c, XNumber ar => forall p q, h a = Some p -> h c = Some q -> sum_fits ar p q
  | _, _ => True
  end.

(* the call that asks for the operation *)
Definition at_addr (T : tptr) (a : addr) (v : value) : Prop := v_type v = T /\ v_addr v = a.
Inductive wants (T : tptr) (id : str) : plainop -> str -> list value -> Prop :=
| A_new : wants T id PNew id []
| A_copy v x : at_addr T x v -> ~ gives v -> wants T id (PCopyOf x) id [v]
| A_move v x : at_addr T x v -> gives v -> wants T id (PMoveOf x) id [v]
| A_assign v a w x : v_arg v = Arg T LValue false -> v_addr v = a -> at_addr T x w -> ~ gives w ->
    wants T id (PAssign a x) (lit "operator=") [v; w]
| A_move_assign v a w x : v_arg v = Arg T LValue false -> v_addr v = a -> at_addr T x w -> gives w ->
    wants T id (PMoveAssign a x) (lit "operator=") [v; w]
| A_alloc : wants T id PAlloc (lit "new") []
| A_alloc_copy v x : at_addr T x v -> ~ gives v -> wants T id (PAllocCopy x) (lit "new") [v]
| A_alloc_move v x : at_addr T x v -> gives v -> wants T id (PAllocMove x) (lit "new") [v]
| A_plus v a w x : at_addr T a v -> at_addr T x w -> wants T id (PPlus a x) (lit "operator+") [v; w]
| A_size v a : at_addr T a v -> wants T id (PSize a) (lit "size") [v].

(* w owns a new object *)
Definition owns_new (T : tptr) (m : mem) (w : value) : Prop :=
  v_arg w = Arg T LValue false /\ v_stored w = true /\ snd (v_addr w) = 0%N /\ m (fst (v_addr w)) = DNone.
(* w is what the operation gives back and new the address of the object it made; m
   before, m' after; R: the type of a sum, of a size *)
Definition plain_result (x : more) (T PT R : tptr) (m m' : mem) (op : plainop) (w : value) (new : addr) : Prop :=
  match op with
  | PNew | PCopyOf _ | PMoveOf _ => owns_new T m w /\ new = v_addr w
  | PAssign a _ | PMoveAssign a _ => v_arg w = Arg T LValue false /\ v_stored w = false /\ v_addr w = a
  | PAlloc | PAllocCopy _ | PAllocMove _ =>
      owns_pointer PT m' w (Some new) /\ m (fst (v_addr w)) = DNone /\ m (fst new) = DNone /\ fst new <> fst (v_addr w)
  | PPlus a c => exists r, owns_number R m' w r /\
      forall ar p q, x = XNumber ar -> read m a = Some p -> read m c = Some q -> is_sum ar p q r
  | PSize a => exists r, owns_number R m' w r /\
      forall size p, x = XString size -> read m a = Some p -> r = size p
  end.

(* T is a number type, std::string or a class as its reflection leaves it; PT is T*,
   R the type of a sum or of a size *)
Definition plain_regs (x : more) (id : str) (T PT R : tptr) (n : numkind) (b : nat) : list reg :=
  match x with
  | XNumber _ => number id T PT R n (Caps true true true true true) b
  | XString _ => stdString id T PT R (Caps true true true true true) b
  | XClass => plumbing id T (Caps true true true true true) b ++ allocPlumbing T PT (Caps true true true true true) (b + 5)
  end.
Record plain_type (E : cpp) (H : heap) (K : plain) (x : more) (T PT R : tptr) (n : numkind) (id : str) : Prop := {
  pn_wf : wf_heap H;
  pn_carries : carries H T id (plain_regs x id T PT R n (p_base K));
  pn_id : ~ In id [lit "operator="; lit "new"; lit "operator+"; lit "size"];
  pn_apart : h_value H <> h_void H /\ Forall (fun U => U <> h_void H /\ U <> h_value H) [T; PT; R];
  pn_valid : valid H PT /\ valid H R;
  pn_cpp : cpp_copyable E T = true /\ cpp_movable E T = true /\ cpp_copyable E PT = true /\ cpp_copyable E R = true }.
(* what new T leaves in the object: new T() for classes, new T otherwise *)
Definition raw_of (K : plain) (x : more) : N := match x with XClass => p_dflt K | _ => p_raw K end.

(* a client making calls: h is what it knows of the values *)
Record pworld := PWorld { pw_mem : mem; pw_st : state; pw_known : store }.
Definition known_after (K : plain) (x : more) (op : plainop) (new : addr) (h : store) : store :=
  match made K (raw_of K x) op h with
  | Some p => put (after K op h) new (Some p)
  | None => after K op h
  end.
(* where the object made by the operation is *)
Definition new_of (op : plainop) (m' : mem) (w : value) : addr :=
  match op, m' (fst (v_addr w)) with
  | (PAlloc | PAllocCopy _ | PAllocMove _), DPtr (Some a) => a
  | _, _ => v_addr w
  end.
Inductive pstep (E : cpp) (H : heap) (K : plain) (x : more) (T : tptr) (id : str) : pworld -> pworld -> Prop :=
| PS_call m st h op name args w m' st' n :
    wants T id op name args -> plain_ok x h op ->
    mtype_call (plain_body K x) (S (S n)) E H m st T name args = Ok (w, m', st') ->
    pstep E H K x T id (PWorld m st h) (PWorld m' st' (known_after K x op (new_of op m' w) h))
| PS_look m st h a p :                            (* it looks at an object *)
    read m a = Some p -> pstep E H K x T id (PWorld m st h) (PWorld m st (put h a (Some p)))
| PS_make m st h p :                              (* it makes an object without reflection *)
    pstep E H K x T id (PWorld m st h)
      (PWorld (mset m (st_next st) (DData p)) (St (S (st_next st)) (st_log st)) (put h (st_next st, 0%N) (Some p))).
(* what it knows is so *)
Definition knows (w : pworld) : Prop :=
  unborn (pw_mem w) (st_next (pw_st w)) /\ forall a p, pw_known w a = Some p -> read (pw_mem w) a = Some p.
