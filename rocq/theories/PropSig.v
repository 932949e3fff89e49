(* PropSig.v - property theorems C59-C61: the Argument of a C++ type, typed calls
   against the binding rules of C++, and the results a caller may ask for. *)
From Coq Require String. Import String.StringSyntax.
From Coq Require Import Relations.
From Verif Require Import Base ModelCore SpecCore ProofCore ProofMatch ExCore ProofCore2 ModelClean PropClean ModelSig.
Local Open Scope outcome_scope.

(* ===== specification ===== *)
(* a value, lvalue reference or rvalue reference *)
Definition category (t : cpp) : reftype := match t with CLRef _ => LValue | CRRef _ => RValue | _ => Copy end.
(* a const object: a const type, or an array of const objects *)
Inductive const_object : cpp -> Prop :=
| CO_const u : const_object (CConst u)
| CO_array e : const_object e -> const_object (CArr e).
(* the outermost type, reference aside, is const *)
Definition outer_const (t : cpp) : Prop := exists u, const_object u /\ (t = u \/ t = CLRef u \/ t = CRRef u).
(* a class or arithmetic type, possibly const: no pointer, array or function in it *)
Definition plain (n : nat) (X : cpp) : Prop := X = CBase n \/ X = CConst (CBase n).

(* C++ [dcl.init.ref], [over.best.ics]: an expression of type X, an lvalue or not,
   initialises a parameter of type P without a user conversion; sub x p tells that
   class x is p or derives from it *)
Definition cpp_binds (sub : nat -> nat -> Prop) (lvalue : bool) (X P : cpp) : Prop :=
  exists x p, plain x X /\ sub x p /\
    (plain p P \/
     P = CLRef (CConst (CBase p)) \/
     (P = CLRef (CBase p) /\ lvalue = true /\ X = CBase x) \/
     (P = CRRef (CBase p) /\ lvalue = false /\ X = CBase x) \/
     (P = CRRef (CConst (CBase p)) /\ lvalue = false)).
Definition plain_param (p : nat) (P : cpp) : Prop := exists Q, plain p Q /\ (P = Q \/ P = CLRef Q \/ P = CRRef Q).

(* ===== C59 ===== *)
Lemma is_const_spec t : is_const t = true <-> const_object t.
Proof.
  induction t as [n|t IH|t IH|t IH|t IH|t IH|n]; cbn [is_const]; split; intro X; try discriminate X; try (inversion X; subst; fail).
  all: try reflexivity; try constructor; try (now apply IH); try (inversion X; subst; now apply IH).
Qed.
Lemma isConst_spec t : isConst t = true <-> outer_const t.
Proof.
  unfold isConst, outer_const. split.
  - intro X. exists (bare t). split; [now apply is_const_spec|]. destruct t; auto.
  - intros (u & C & [->|[->| ->]]); [|now apply is_const_spec..]. apply is_const_spec. destruct C; [apply CO_const|now apply CO_array].
Qed.

Theorem c59_argument : forall name obj t, cpp_type t = true -> no_fun t = true ->
  exists c, make name obj t = Ok (Arg (obj (name (fst (core t)) ++ stars (snd (core t)))) (category t) c) /\
    (c = true <-> outer_const t).
Proof.
  intros name obj t W F. unfold make. rewrite (c47_same_type_object name t W F). cbn [bind].
  exists (isConst t). split; [|apply isConst_spec].
  destruct t; reflexivity.
Qed.
Print Assumptions c59_argument.

(* a call with a C++ expression sees it as a reference to the expression *)
Theorem c59_expression : forall name obj lv X, obj_type X = true -> no_fun X = true ->
  make_expr name obj lv X = make name obj (if lv then CLRef X else CRRef X).
Proof.
  intros name obj lv X W F. unfold make_expr, make. destruct lv; cbn [deduced].
  - reflexivity.
  - destruct (c47_variants name X W F) as (_ & E & _). rewrite E.
    replace (makeRefTypeOf X) with RValue by (destruct X; try discriminate W; reflexivity).
    replace (isConst X) with (isConst (CRRef X)) by (destruct X; try discriminate W; reflexivity). reflexivity.
Qed.
Print Assumptions c59_expression.

(* an Argument determines the C++ type up to const below pointers (and arrays decaying
   to pointers); a type without pointers it determines completely *)
Theorem c59_determines : forall name obj t u, (forall n m, name n = name m -> n = m) -> (forall n, ~ In 42%N (name n)) ->
  (forall a b, obj a = obj b -> a = b) ->
  cpp_type t = true -> no_fun t = true -> cpp_type u = true -> no_fun u = true -> make name obj t = make name obj u ->
  core t = core u /\ category t = category u /\ (outer_const t <-> outer_const u) /\ (snd (core t) = 0 -> t = u).
Proof.
  intros name obj t u Ni Ns Oi Wt Ft Wu Fu E.
  destruct (c59_argument name obj t Wt Ft) as (c & E1 & C1). destruct (c59_argument name obj u Wu Fu) as (d & E2 & C2).
  rewrite E1, E2 in E. injection E as Eo Ec Ecd. apply Oi in Eo.
  assert (K : core t = core u).
  { apply (c47_ids_distinguish name t u Ni Ns Wt Ft Wu Fu). rewrite !c47_type_id by auto. now f_equal. }
  assert (O : outer_const t <-> outer_const u) by (rewrite <- C1, <- C2, Ecd; reflexivity).
  split; auto. split; auto. split; auto. intro Z. rewrite <- !isConst_spec in O. unfold isConst in O.
  assert (Zu : snd (core u) = 0) by (now rewrite <- K).
  assert (P : forall v, obj_type v = true -> no_fun v = true -> snd (core v) = 0 ->
    v = if is_const v then CConst (CBase (fst (core v))) else CBase (fst (core v))).
  { intros [n|[n|w|w|w|w|w|n]|w|w|w|w|n] Wv Fv Zv; try discriminate; reflexivity. }
  assert (Ot : forall a b, obj_type a = true -> no_fun a = true -> obj_type b = true -> no_fun b = true ->
     snd (core a) = 0 -> core a = core b -> (is_const a = true <-> is_const b = true) -> a = b).
  { intros a b A1 A2 B1 B2 Za Kab Oab. assert (Zb : snd (core b) = 0) by (now rewrite <- Kab).
    rewrite (P a), (P b) by auto. rewrite Kab.
    destruct (is_const a), (is_const b); auto; destruct Oab as [X Y]; [now discriminate X|now discriminate Y]. }
  destruct t as [n|t|t|t|t|t|n], u as [m|u|u|u|u|u|m]; try discriminate Ec; cbn in Wt, Ft, Wu, Fu, Z, Zu, K; try discriminate;
    try (f_equal; apply Ot; auto; fail); apply Ot; auto.
Qed.
Print Assumptions c59_determines.

(* member functions are functions of their object, functors and lambdas of their
   parameters only *)
Theorem c59_method_is_function : forall name obj n o c ret args code,
  makeFunction name obj n (KMember o c ret args) code =
  makeFunction name obj n (KGlobal ret (CLRef (if c then CConst o else o) :: args)) code /\
  makeFunction name obj n (KFunctor c ret args) code = makeFunction name obj n (KGlobal ret args) code.
Proof. intros. split; reflexivity. Qed.
Print Assumptions c59_method_is_function.

Theorem c59_signature : forall name obj n k code, Forall (fun t => cpp_type t = true /\ no_fun t = true) (fReturn k :: fArguments k) ->
  exists r args, makeFunction name obj n k code = Ok (Fn n r args code) /\ make name obj (fReturn k) = Ok r /\
    Forall2 (fun t a => make name obj t = Ok a) (fArguments k) args.
Proof.
  intros name obj n k code F. inversion F as [|? ? [Wr Fr] Fa]; subst.
  destruct (c59_argument name obj _ Wr Fr) as (c & Er & _).
  assert (A : exists args, reflectArguments name obj (fArguments k) = Ok args /\
     Forall2 (fun t a => make name obj t = Ok a) (fArguments k) args).
  { induction Fa as [|t ts [Wt Ft] Fa IH]; [exists []; split; [reflexivity|constructor]|].
    destruct (c59_argument name obj _ Wt Ft) as (d & Et & _).
    destruct IH as (args & Ea & F2). { inversion F; constructor; auto. }
    eexists (_ :: args). cbn [reflectArguments]. rewrite Et. cbn [bind]. rewrite Ea. split; [reflexivity|]. constructor; auto. }
  destruct A as (args & Ea & F2). exists (Arg (obj (name (fst (core (fReturn k))) ++ stars (snd (core (fReturn k))))) (category (fReturn k)) c), args.
  unfold makeFunction. rewrite Er. cbn [bind]. rewrite Ea. auto.
Qed.
Print Assumptions c59_signature.

(* fields: any type but references *)
Theorem c59_field : forall name obj n t off, cpp_type t = true -> no_fun t = true ->
  exists a, make name obj t = Ok a /\
    field_make name obj n t off = (if ref_eqb (category t) Copy then Ok (Field n a off []) else Abort).
Proof.
  intros name obj n t off W F. destruct (c59_argument name obj t W F) as (c & E & _). eexists. split; [exact E|].
  unfold field_make. rewrite E. cbn [bind]. unfold makeField. cbn [a_ref]. destruct (category t); reflexivity.
Qed.
Print Assumptions c59_field.

(* pointer to const and pointer to mutable are one Argument: a const Foo* is an
   exact match for a Foo* parameter *)
Theorem c59_pointee_const_refuted : forall name obj n, 
  make name obj (CPtr (CConst (CBase n))) = make name obj (CPtr (CBase n)) /\
  forall H a b, make name obj (CPtr (CConst (CBase n))) = Ok a -> make name obj (CPtr (CBase n)) = Ok b ->
    isConvertibleTo H a b = Ok MExact.
Proof.
  intros name obj n. assert (E : make name obj (CPtr (CConst (CBase n))) = make name obj (CPtr (CBase n))) by reflexivity.
  split; [exact E|]. intros H a b Ea Eb. rewrite E, Eb in Ea. injection Ea as <-. apply isConvertibleTo_refl.
Qed.
Print Assumptions c59_pointee_const_refuted.

Example c59_ex : make_expr (fun _ => lit "Foo") (fun _ => 3) true (CConst (CBase 0)) = Ok (Arg 3 LValue true) /\
  make (fun _ => lit "Foo") (fun _ => 3) (CRRef (CBase 0)) = Ok (Arg 3 RValue false) /\
  makeFunction (fun _ => lit "Foo") (fun _ => 3) (lit "m") (KMember (CBase 0) true (CBase 0) [CLRef (CBase 0)]) 7
    = Ok (Fn (lit "m") (Arg 3 Copy false) [Arg 3 LValue true; Arg 3 LValue false] 7) /\
  field_make (fun _ => lit "Foo") (fun _ => 3) (lit "f") (CConst (CBase 0)) 8 = Ok (Field (lit "f") (Arg 3 Copy true) 8 []) /\
  field_make (fun _ => lit "Foo") (fun _ => 3) (lit "f") (CLRef (CBase 0)) 8 = Abort.
Proof. repeat split. Qed.

(* ===== C60: a call with C++ expressions is accepted iff C++ accepts it ===== *)
Definition object_of (name : nat -> str) (obj : str -> tptr) (n : nat) : tptr := obj (name n).
(* plain types without reflected conversions between them, none of them Value *)
Definition no_conversion (name : nat -> str) (obj : str -> tptr) (H : heap) (x p : nat) : Prop :=
  let X := object_of name obj x in let P := object_of name obj p in
  valid H X /\ valid H P /\ X <> h_value H /\ P <> h_value H /\ ~ has_user_conversion H X P.

Lemma make_plain_expr name obj lv x X : plain x X ->
  make_expr name obj lv X = Ok (Arg (object_of name obj x) (if lv then LValue else RValue) (is_const X)).
Proof.
  intros [->| ->]; destruct lv; reflexivity.
Qed.
Lemma make_plain_param name obj p P : plain_param p P ->
  make name obj P = Ok (Arg (object_of name obj p) (category P) (isConst P)).
Proof. intros (Q & [->| ->] & [->|[->| ->]]); reflexivity. Qed.

Theorem c60_argument_binds : forall name obj H lv x X p P a b m, wf_heap H -> plain x X -> plain_param p P ->
  no_conversion name obj H x p -> make_expr name obj lv X = Ok a -> make name obj P = Ok b -> isConvertibleTo H a b = Ok m ->
  (m <> MNone <-> cpp_binds (fun x p => Subtype H (object_of name obj x) (object_of name obj p)) lv X P).
Proof.
  intros name obj H lv x X p P a b m W PX PP (Vx & Vp & Nx & Np & Nc) Ea Eb Em.
  rewrite (make_plain_expr name obj lv x X PX) in Ea. injection Ea as <-.
  rewrite (make_plain_param name obj p P PP) in Eb. injection Eb as <-.
  apply isConvertibleTo_iff_Grade in Em; auto.
  set (a := Arg _ _ (is_const X)) in *. set (b := Arg _ (category P) _) in *.
  assert (L : m <> MNone <-> legal_binding a b /\ Subtype H (a_type a) (a_type b)).
  { inversion Em as [E|E V|E V C1|E V C1|E V C1 G|E V C1 G1 G2 G3|E V C1 G1 G2 G3]; subst m; split; auto; try tauto; try discriminate.
    - intros _. rewrite <- E. split; [|constructor]. unfold legal_binding. cbn. destruct lv; auto.
      destruct (is_const X); auto.
    - intros _. destruct V as [[V _]|[_ V]]; contradiction. }
  rewrite L. unfold legal_binding, cpp_binds. cbn [a_type a_ref a_const a b].
  split.
  - intros [LB Sb]. exists x, p. split; auto. split; auto.
    destruct PP as (Q & PQ & E). destruct E as [->|[->| ->]].
    + now left.
    + destruct PQ as [->| ->]; cbn in LB; [|now right; left].
      right. right. left. destruct LB as [LB|[LB1 LB2]]; [discriminate|]. split; auto.
      destruct lv; [|discriminate]. split; auto. destruct PX as [->| ->]; [reflexivity|discriminate].
    + destruct PQ as [->| ->]; cbn in LB; destruct LB as [LB1 LB2]; (destruct lv; [discriminate|]).
      * right. right. right. left. split; auto. split; auto. destruct PX as [->| ->]; [reflexivity|]. now specialize (LB2 eq_refl).
      * right. right. right. now right.
  - intros (x' & p' & PX' & Sb & Hb).
    assert (x' = x) as -> by (destruct PX as [->| ->], PX' as [E|E]; congruence).
    assert (p' = p) as ->.
    { destruct PP as (Q & PQ & E). destruct PQ as [->| ->]; destruct E as [->|[->| ->]];
      destruct Hb as [[D|D]|[D|[(D & _)|[(D & _)|(D & _)]]]]; congruence. }
    split; auto.
    destruct Hb as [[->| ->]|[->|[(-> & -> & ->)|[(-> & -> & ->)|(-> & ->)]]]]; cbn; auto.
Qed.
Print Assumptions c60_argument_binds.

(* all arguments of a call *)
Theorem c60_call_binds : forall name obj H es Ps xs ps vs ts m, wf_heap H ->
  Forall2 (fun x e => plain x (snd e)) xs es -> Forall2 plain_param ps Ps ->
  (forall x p, In x xs -> In p ps -> no_conversion name obj H x p) ->
  reflectExprs name obj es = Ok vs -> reflectArguments name obj Ps = Ok ts -> testArguments H vs ts = Ok m ->
  (m <> MNone <-> Forall2 (fun e P => cpp_binds (fun x p => Subtype H (object_of name obj x) (object_of name obj p)) (fst e) (snd e) P) es Ps).
Proof.
  intros name obj H es Ps xs ps vs ts m W FX FP NC Ev Et Em.
  assert (Lv : length vs = length es).
  { clear -Ev. revert vs Ev. induction es as [|[lv X] es IH]; cbn; intros vs E.
    - now injection E as <-.
    - apply bind_Ok in E as (a & _ & E). apply bind_Ok in E as (r & Er & E). injection E as <-. cbn. f_equal. auto. }
  assert (Lt : length ts = length Ps).
  { clear -Et. revert ts Et. induction Ps as [|P Ps IH]; cbn; intros ts E.
    - now injection E as <-.
    - apply bind_Ok in E as (a & _ & E). apply bind_Ok in E as (r & Er & E). injection E as <-. cbn. f_equal. auto. }
  destruct (Nat.eq_dec (length vs) (length ts)) as [L|L].
  2:{ rewrite testArguments_arity in Em by auto. injection Em as <-. split; [congruence|].
      intro F. assert (length es = length Ps) by (clear -F; induction F; cbn; congruence). congruence. }
  assert (G : exists gs, Forall2 (fun vt g => isConvertibleTo H (fst vt) (snd vt) = Ok g) (List.combine vs ts) gs /\
     (Forall (fun g => g <> MNone) gs <->
      Forall2 (fun e P => cpp_binds (fun x p => Subtype H (object_of name obj x) (object_of name obj p)) (fst e) (snd e) P) es Ps)).
  { clear Em. assert (L' : length es = length Ps) by congruence. clear L Lv Lt.
    revert Ps xs ps vs ts FX FP NC Ev Et L'. induction es as [|[lv X] es IH]; intros [|P Ps] xs ps vs ts FX FP NC Ev Et L'; try discriminate.
    - injection Ev as <-. exists []. split; constructor; intros; constructor.
    - inversion FX as [|x ? xs' ? Px FX']; subst. inversion FP as [|p ? ps' ? Pp FP']; subst. cbn [snd] in Px.
      cbn [reflectExprs] in Ev. apply bind_Ok in Ev as (a & Ea & Ev). apply bind_Ok in Ev as (vs' & Ev' & Ev). injection Ev as <-.
      cbn [reflectArguments] in Et. apply bind_Ok in Et as (b & Eb & Et). apply bind_Ok in Et as (ts' & Et' & Et). injection Et as <-.
      destruct (IH Ps xs' ps' vs' ts') as (gs & Fg & Ig); auto.
      { intros x' p' Ix Ip. apply NC; now right. }
      pose proof (NC x p (or_introl eq_refl) (or_introl eq_refl)) as N.
      assert (Va : arg_valid H a /\ arg_valid H b).
      { rewrite (make_plain_expr name obj lv x X Px) in Ea. injection Ea as <-.
        rewrite (make_plain_param name obj p P Pp) in Eb. injection Eb as <-. destruct N as (V1 & V2 & _). split; assumption. }
      destruct (isConvertibleTo_total H a b W (proj1 Va) (proj2 Va)) as [g Eg].
      pose proof (c60_argument_binds name obj H lv x X p P a b g W Px Pp N Ea Eb Eg) as B.
      exists (g :: gs). cbn [List.combine]. split; [constructor; auto|].
      split; intro Q; inversion Q; subst; constructor; try apply B; try apply Ig; auto. }
  destruct G as (gs & Fg & Ig). destruct (testArguments_weakest H vs ts gs Fg L) as (g & Eg & [Wk1 Wk2]).
  rewrite Eg in Em. injection Em as <-. rewrite <- Ig. split.
  - intro N. apply Forall_forall. intros y Iy ->. specialize (Wk1 _ Iy). cbn in Wk1. destruct g; cbn in Wk1; try lia. congruence.
  - intros F ->. destruct Wk2 as [I|[_ E]]; [|discriminate]. rewrite Forall_forall in F. now apply (F _ I).
Qed.
Print Assumptions c60_call_binds.

(* a const Base object for Base&, const Base& and Base; a Derived rvalue for Base&& *)
Definition ex_name (n : nat) : str := match n with 0 => lit "Base" | _ => lit "Derived" end.
Definition ex_obj (s : str) : tptr := if str_eqb s (lit "Base") then 3 else 4.
Example c60_ex : no_conversion ex_name ex_obj exHeap 1 0 /\
  (exists a b, make_expr ex_name ex_obj false (CBase 1) = Ok a /\ make ex_name ex_obj (CRRef (CBase 0)) = Ok b /\
     isConvertibleTo exHeap a b = Ok MExact) /\
  (exists a b, make_expr ex_name ex_obj true (CConst (CBase 0)) = Ok a /\ make ex_name ex_obj (CLRef (CBase 0)) = Ok b /\
     isConvertibleTo exHeap a b = Ok MNone).
Proof.
  split.
  - unfold no_conversion. cbn. split; [unfold valid; cbn; lia|]. split; [unfold valid; cbn; lia|]. split; [discriminate|]. split; [discriminate|].
    intro X. apply hasConverter_spec in X; [discriminate|apply exHeap_wf|unfold valid; cbn; lia..].
  - split; do 2 eexists; repeat split.
Qed.

(* ===== C61: which results a caller may ask for ===== *)
(* never half-acceptable *)
Theorem c61_all_or_nothing : forall H asked ret m, testReturn H asked ret = Ok m -> m = MNone \/ m = MExact.
Proof.
  intros H asked ret m E. unfold testReturn in E.
  destruct (Nat.eqb _ _); [injection E as <-; auto|]. destruct (Nat.eqb _ _).
  - destruct (negb _); [injection E as <-; auto|]. destruct (ref_eqb _ _); injection E as <-; auto.
  - apply bind_Ok in E as (g & _ & E). destruct (grade_eqb _ _); [injection E as <-; auto|].
    destruct (isTemporary ret && isConstRef asked); injection E as <-; auto.
Qed.
Print Assumptions c61_all_or_nothing.

(* void: any result can be dropped; from a void function only a Value handle by value
   can be asked for *)
Theorem c61_void : forall H asked ret,
  (a_type asked = h_void H -> testReturn H asked ret = Ok MExact) /\
  (a_type asked <> h_void H -> a_type ret = h_void H ->
     (testReturn H asked ret = Ok MExact <-> a_type asked = h_value H /\ a_ref asked <> LValue)).
Proof.
  intros H asked ret. split.
  - intro E. unfold testReturn. now rewrite E, Nat.eqb_refl.
  - intros N E. unfold testReturn. apply Nat.eqb_neq in N. rewrite N, E, Nat.eqb_refl.
    destruct (Nat.eqb (a_type asked) (h_value H)) eqn:V; cbn [negb].
    + apply Nat.eqb_eq in V. destruct (a_ref asked); cbn.
      * split; [intros _; split; [auto|discriminate]|reflexivity].
      * split; [discriminate|intros [_ X]; congruence].
      * split; [intros _; split; [auto|discriminate]|reflexivity].
    + apply Nat.eqb_neq in V. split; [discriminate|]. intros [X _]. contradiction.
Qed.
Print Assumptions c61_void.

(* a reference asked for is a reference the function returns, to an object of that
   type, and const is not lost: no dangling reference, no const removed *)
Theorem c61_no_dangling_reference : forall H asked ret m, wf_heap H -> arg_valid H asked -> arg_valid H ret ->
  testReturn H asked ret = Ok m -> m <> MNone -> a_type asked <> h_void H -> a_type ret <> h_void H ->
  a_type asked <> h_value H -> a_type ret <> h_value H -> ~ has_user_conversion H (a_type ret) (a_type asked) ->
  a_ref asked <> Copy ->
  a_ref ret = a_ref asked /\ Subtype H (a_type ret) (a_type asked) /\ (a_const ret = true -> a_const asked = true).
Proof.
  intros H asked ret m W Va Vr E Nm N1 N2 N3 N4 Nc Nr. unfold testReturn in E.
  apply Nat.eqb_neq in N1, N2. rewrite N1, N2 in E. apply bind_Ok in E as (g & Eg & E).
  destruct (grade_eqb g MNone) eqn:Gg; [injection E as <-; contradiction|].
  destruct (isTemporary ret && isConstRef asked) eqn:T; [injection E as <-; contradiction|].
  assert (Ng : g <> MNone) by (intros ->; discriminate).
  apply isConvertibleTo_iff_Grade in Eg; auto.
  assert (LB : legal_binding ret asked /\ Subtype H (a_type ret) (a_type asked)).
  { inversion Eg as [X|X V|X V C1|X V C1|X V C1 G|X V C1 G1 G2 G3|X V C1 G1 G2 G3]; subst g; auto; try contradiction.
    - subst ret. split; [|constructor]. unfold legal_binding. destruct (a_ref asked); auto. destruct (a_const asked); auto.
    - destruct V as [[V _]|[_ V]]; contradiction. }
  destruct LB as [LB Sb]. split; [|split; auto].
  - unfold legal_binding in LB. unfold isTemporary, isConstRef in T. destruct (a_ref asked); try contradiction.
    + destruct LB as [LB|[_ LB]]; auto. rewrite LB in T. destruct (a_ref ret); cbn in T; try discriminate. reflexivity.
    + apply LB.
  - intro Cr. unfold legal_binding in LB. destruct (a_ref asked); try contradiction.
    + destruct LB as [LB|[LB _]]; congruence.
    + apply LB; auto.
Qed.
Print Assumptions c61_no_dangling_reference.

(* by value: any related or convertible result *)
Theorem c61_by_value : forall H asked ret, wf_heap H -> arg_valid H asked -> arg_valid H ret ->
  a_type asked <> h_void H -> a_type ret <> h_void H -> a_ref asked = Copy ->
  a_type asked <> h_value H -> a_type ret <> h_value H ->
  (testReturn H asked ret = Ok MExact <->
   Subtype H (a_type ret) (a_type asked) \/ has_user_conversion H (a_type ret) (a_type asked)).
Proof.
  intros H asked ret W Va Vr N1 N2 Er N3 N4. unfold testReturn. apply Nat.eqb_neq in N1, N2. rewrite N1, N2.
  destruct (isConvertibleTo_total H ret asked W Vr Va) as [g Eg]. rewrite Eg. cbn [bind].
  apply isConvertibleTo_iff_Grade in Eg; auto.
  replace (isConstRef asked) with false by (unfold isConstRef; rewrite Er; now rewrite Bool.andb_comm).
  rewrite Bool.andb_comm. cbn [andb].
  assert (LB : legal_binding ret asked) by (unfold legal_binding; rewrite Er; exact I).
  inversion Eg as [X|X V|X V C1|X V C1|X V C1 G|X V C1 G1 G2 G3|X V C1 G1 G2 G3]; subst g; cbn [grade_eqb]; split; intro Q; auto; try discriminate.
  all: try (destruct V as [[V _]|[_ V]]; contradiction). all: try (left; subst ret; constructor).
  all: try (exfalso; congruence). all: exfalso; destruct Q; tauto.
Qed.
Print Assumptions c61_by_value.

(* asking for a const reference to a result returned by value is refused *)
Theorem c61_const_ref_to_temporary : forall H asked ret, wf_heap H -> arg_valid H asked -> arg_valid H ret ->
  a_type asked <> h_void H -> a_ref asked = LValue -> a_ref ret <> LValue -> a_const asked = true -> testReturn H asked ret = Ok MNone.
Proof.
  intros H asked ret W Va Vr N1 Er Nr Ca. unfold testReturn. apply Nat.eqb_neq in N1. rewrite N1.
  destruct (Nat.eqb (a_type ret) (h_void H)).
  - rewrite Er. destruct (Nat.eqb (a_type asked) (h_value H)); reflexivity.
  - destruct (isConvertibleTo_total H ret asked W Vr Va) as [g Eg]. rewrite Eg. cbn [bind].
    destruct (grade_eqb g MNone); auto. unfold isTemporary, isConstRef. rewrite Er, Ca. destruct (a_ref ret); try contradiction; reflexivity.
Qed.
Print Assumptions c61_const_ref_to_temporary.

(* when the reference asked for is a Value&, a temporary passes *)
Theorem c61_value_reference_refuted : exists H asked ret, wf_heap H /\ a_type asked = h_value H /\ a_ref asked = LValue /\ a_ref ret = Copy /\
  testReturn H asked ret = Ok MExact.
Proof. exists exHeap, (Arg 1 LValue false), (Arg 3 Copy false). split; [apply exHeap_wf|]. repeat split. Qed.
Print Assumptions c61_value_reference_refuted.

Example c61_ex : testReturn exHeap (Arg 3 LValue true) (Arg 4 LValue false) = Ok MExact /\
  testReturn exHeap (Arg 3 LValue false) (Arg 4 LValue true) = Ok MNone /\
  testReturn exHeap (Arg 3 LValue true) (Arg 4 Copy false) = Ok MNone /\
  testReturn exHeap (Arg 3 Copy false) (Arg 4 LValue true) = Ok MExact.
Proof. repeat split. Qed.
