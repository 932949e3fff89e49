(* PropClean.v - C47 *)
From Coq Require String. Import String.StringSyntax.
From Verif Require Import Base ModelClean.
Local Open Scope outcome_scope.

(* Specification: the named type at the bottom and the number of pointer (or array)
   levels above it, whatever const and references are in between. *)
Fixpoint core (t : cpp) : nat * nat :=
  match t with
  | CBase n => (n, 0)
  | CFun n => (n, 0)
  | CConst t' | CLRef t' | CRRef t' => core t'
  | CPtr t' | CArr t' => (fst (core t'), Datatypes.S (snd (core t')))
  end.
Fixpoint pointers (k : nat) (t : cpp) : cpp := match k with O => t | Datatypes.S k' => CPtr (pointers k' t) end.
Definition canonical (t : cpp) : cpp := pointers (snd (core t)) (CBase (fst (core t))).

Lemma decay_core t : no_fun t = true -> core (decay t) = core t.
Proof.
  unfold decay. destruct t as [|t| |t|t| |]; cbn; auto; try discriminate.
  - destruct t; cbn; auto; discriminate.
  - destruct t; cbn; auto; discriminate.
Qed.
Lemma decay_facts t : cpp_type t = true -> no_fun t = true ->
  no_fun (decay t) = true /\ csize (decay t) <= csize t /\ obj_type (decay t) = true /\
  (forall v, decay t <> CConst v) /\ (forall v, decay t <> CLRef v) /\ (forall v, decay t <> CRRef v) /\ (forall v, decay t <> CArr v).
Proof.
  unfold decay. intros W F.
  assert (D : forall u, obj_type u = true -> no_fun u = true ->
    let d := match u with CArr e => CPtr e | CFun n => CPtr (CFun n) | CConst v => v | _ => u end in
    no_fun d = true /\ csize d <= csize u /\ obj_type d = true /\ (forall v, d <> CConst v) /\ (forall v, d <> CLRef v) /\ (forall v, d <> CRRef v) /\ (forall v, d <> CArr v)).
  { intros [n|[ | | | | | |]| | | | |] W' F'; cbn in *; try discriminate; auto 10; repeat split; auto; try congruence; try lia; discriminate. }
  destruct t as [n|t|t|t|t|t|n]; cbn in W, F; try discriminate; try (apply (D (CBase n)); auto; fail); try (apply (D (CConst t)); auto; fail); try (apply (D (CPtr t)); auto; fail); try (apply (D (CArr t)); auto; fail).
  - destruct (D t W F) as (A1 & A2 & A3). cbn [csize]. split; [exact A1|]. split; [cbn zeta in *; lia|exact A3].
  - destruct (D t W F) as (A1 & A2 & A3). cbn [csize]. split; [exact A1|]. split; [cbn zeta in *; lia|exact A3].
Qed.

Lemma canonical_ptr u : canonical (CPtr u) = CPtr (canonical u).
Proof. reflexivity. Qed.
Lemma canonical_core t u : core t = core u -> canonical t = canonical u.
Proof. unfold canonical. now intros ->. Qed.

Lemma obj_cpp t : obj_type t = true -> cpp_type t = true.
Proof. destruct t; auto; discriminate. Qed.

(* on anything of the form of a decayed type, CleanType gives the canonical type *)
Lemma clean_f_canonical : forall fuel t, csize t < fuel -> obj_type t = true -> no_fun t = true ->
  (forall v, t <> CConst v) -> (forall v, t <> CArr v) -> clean_f fuel t = Ok (canonical t).
Proof.
  induction fuel as [|fuel IH]; intros t L W F NC NA; [lia|].
  destruct t as [n|t|t|t|t|t|n]; cbn in W, F; try discriminate; try (elim (NC t); reflexivity); try (elim (NA t); reflexivity).
  - reflexivity.
  - cbn [clean_f]. destruct (decay_facts t (obj_cpp _ W) F) as (D1 & D2 & D3 & D4 & D5 & D6 & D7).
    cbn [csize] in L. rewrite IH; auto; [|lia]. cbn [bind]. rewrite canonical_ptr. f_equal. f_equal.
    apply canonical_core. now apply decay_core.
Qed.

(* what CleanType gives: the canonical type, or the merely decayed type if the type
   is not syntactically a pointer *)
Lemma clean_cases t : cpp_type t = true -> no_fun t = true ->
  clean t = Ok (match t with CPtr _ => canonical t | _ => decay t end).
Proof.
  intros W F. destruct t as [n|t|t|t|t|t|n]; try reflexivity.
  unfold clean. apply clean_f_canonical; auto; discriminate.
Qed.

Lemma pointers_facts k n : cpp_type (pointers k (CBase n)) = true /\ no_fun (pointers k (CBase n)) = true /\ core (pointers k (CBase n)) = (n, k) /\
  clean (pointers k (CBase n)) = Ok (pointers k (CBase n)).
Proof.
  assert (A : obj_type (pointers k (CBase n)) = true /\ no_fun (pointers k (CBase n)) = true /\ core (pointers k (CBase n)) = (n, k)).
  { induction k as [|k (A & B & C)]; cbn; auto. rewrite C. auto. }
  destruct A as (A & B & C). split; [now apply obj_cpp|]. split; auto. split; auto.
  rewrite clean_cases; auto using obj_cpp. destruct k; [reflexivity|]. cbn [pointers] in C |- *. f_equal. unfold canonical.
  now rewrite C.
Qed.

Definition stars (k : nat) : str := repeat 42%N k.
Lemma stars_S k : stars (Datatypes.S k) = stars k ++ lit "*".
Proof. unfold stars. induction k; cbn in *; [reflexivity|]. now rewrite <- IHk. Qed.

Lemma reflect_id_spec name : forall fuel t, csize t < fuel -> obj_type t = true -> no_fun t = true ->
  (forall v, t <> CConst v) -> (forall v, t <> CArr v) ->
  reflect_id name fuel t = Ok (name (fst (core t)) ++ stars (snd (core t))).
Proof.
  induction fuel as [|fuel IH]; intros t L W F NC NA; [lia|].
  destruct t as [n|t|t|t|t|t|n]; cbn in W, F; try discriminate; try (elim (NC t); reflexivity); try (elim (NA t); reflexivity).
  - cbn. now rewrite app_nil_r.
  - cbn [reflect_id]. rewrite clean_cases by auto using obj_cpp. cbn [bind]. cbn [csize] in L.
    destruct (decay_facts t (obj_cpp _ W) F) as (D1 & D2 & D3 & D4 & D5 & D6 & D7).
    assert (Q : reflect_id name fuel (match t with CPtr _ => canonical t | _ => decay t end) = Ok (name (fst (core t)) ++ stars (snd (core t)))).
    { assert (Q : reflect_id name fuel (decay t) = Ok (name (fst (core t)) ++ stars (snd (core t)))).
      { rewrite IH; auto; [|lia]. now rewrite decay_core. }
      destruct t as [n|t|t|t|t|t|n]; auto.
      unfold canonical. destruct (pointers_facts (snd (core (CPtr t))) (fst (core (CPtr t)))) as (P1 & P2 & P3 & P4).
      rewrite IH.
      - now rewrite P3.
      - assert (S1 : forall k n, csize (pointers k (CBase n)) = Datatypes.S k) by (induction k; cbn; auto).
        rewrite S1. assert (S2 : forall u, snd (core u) < csize u) by (induction u; cbn; lia).
        specialize (S2 (CPtr t)). lia.
      - cbn [core snd pointers] in *. exact P1.
      - exact P2.
      - cbn [core snd pointers]. discriminate.
      - cbn [core snd pointers]. discriminate. }
    rewrite Q. cbn [bind]. rewrite <- app_assoc. cbn [core fst snd]. now rewrite stars_S.
Qed.

(* ===== C47 ===== *)
(* The id of a type is the name of its named type followed by one star per pointer
   level, whatever const and references appear where. *)
Theorem c47_type_id : forall name t, cpp_type t = true -> no_fun t = true ->
  typeId name t = Ok (name (fst (core t)) ++ stars (snd (core t))).
Proof.
  intros name t W F. unfold typeId. rewrite clean_cases by auto. cbn [bind].
  destruct (decay_facts t W F) as (D1 & D2 & D3 & D4 & D5 & D6 & D7).
  assert (Q : reflect_id name (Datatypes.S (csize t)) (decay t) = Ok (name (fst (core t)) ++ stars (snd (core t)))).
  { rewrite reflect_id_spec; auto; [|lia]. now rewrite decay_core. }
  destruct t as [n|t|t|t|t|t|n]; auto.
  unfold canonical. destruct (pointers_facts (snd (core (CPtr t))) (fst (core (CPtr t)))) as (P1 & P2 & P3 & P4).
  rewrite reflect_id_spec.
  - now rewrite P3.
  - assert (S1 : forall k n, csize (pointers k (CBase n)) = Datatypes.S k) by (induction k; cbn; auto).
    rewrite S1. assert (S2 : forall u, snd (core u) < csize u) by (induction u; cbn; lia).
    specialize (S2 (CPtr t)). lia.
  - cbn [core snd pointers] in *. exact P1.
  - exact P2.
  - cbn [core snd pointers]. discriminate.
  - cbn [core snd pointers]. discriminate.
Qed.
Print Assumptions c47_type_id.

(* type<T>() looks that id up, has registered that same id, and the code that builds
   the type is the one of the canonical type. *)
Theorem c47_same_type_object : forall name t, cpp_type t = true -> no_fun t = true ->
  let id := name (fst (core t)) ++ stars (snd (core t)) in
  get_type name t = Ok (id, id, canonical t).
Proof.
  intros name t W F id. unfold get_type. pose proof (c47_type_id name t W F) as E. unfold typeId in E.
  apply bind_Ok in E as (c & E1 & E2). rewrite E1. cbn [bind]. rewrite E2. cbn [bind].
  assert (C : clean c = Ok (canonical t)).
  { rewrite clean_cases in E1 by auto. injection E1 as <-.
    destruct (decay_facts t W F) as (D1 & D2 & D3 & D4 & D5 & D6 & D7).
    assert (Q : clean (decay t) = Ok (canonical t)).
    { unfold clean. rewrite clean_f_canonical; auto. f_equal. apply canonical_core. now apply decay_core. }
    destruct t as [n|t|t|t|t|t|n]; auto. unfold canonical. apply pointers_facts. }
  rewrite C. cbn [bind]. rewrite reflect_id_spec.
  - unfold canonical. destruct (pointers_facts (snd (core t)) (fst (core t))) as (P1 & P2 & P3 & P4). rewrite P3. reflexivity.
  - unfold canonical. assert (S1 : forall k n, csize (pointers k (CBase n)) = Datatypes.S k) by (induction k; cbn; auto).
    rewrite S1. assert (S2 : forall u, snd (core u) < csize u) by (induction u; cbn; lia).
    specialize (S2 t). lia.
  - unfold canonical. destruct (snd (core t)) as [|k]; [reflexivity|]. pose proof (pointers_facts (Datatypes.S k) (fst (core t))) as (P1 & _).
    exact P1.
  - unfold canonical. apply pointers_facts.
  - unfold canonical. destruct (snd (core t)); discriminate.
  - unfold canonical. destruct (snd (core t)); discriminate.
Qed.
Print Assumptions c47_same_type_object.

(* the variants of a type listed in the property *)
Theorem c47_variants : forall name t, obj_type t = true -> no_fun t = true ->
  get_type name (CLRef t) = get_type name t /\ get_type name (CRRef t) = get_type name t /\
  (obj_type (CConst t) = true -> get_type name (CConst t) = get_type name t /\ get_type name (CLRef (CConst t)) = get_type name t /\
     get_type name (CPtr (CConst t)) = get_type name (CPtr t) /\ get_type name (CConst (CPtr (CConst t))) = get_type name (CPtr t) /\
     get_type name (CLRef (CConst (CPtr (CConst t)))) = get_type name (CPtr t)).
Proof.
  intros name t W F. pose proof (obj_cpp _ W) as W'. rewrite !c47_same_type_object by auto. split; [reflexivity|]. split; [reflexivity|].
  intro C. pose proof (obj_cpp _ C) as C'. rewrite !c47_same_type_object by auto. auto 10.
Qed.
Print Assumptions c47_variants.

(* distinct types keep distinct ids: the depth and the named type are recoverable *)
Theorem c47_ids_distinguish : forall name t u, (forall n m, name n = name m -> n = m) -> (forall n, ~ In 42%N (name n)) ->
  cpp_type t = true -> no_fun t = true -> cpp_type u = true -> no_fun u = true ->
  typeId name t = typeId name u -> core t = core u.
Proof.
  intros name t u Inj NS W F W2 F2. rewrite !c47_type_id by auto. intro E. injection E as E.
  assert (A : forall a b i j, ~ In 42%N a -> ~ In 42%N b -> a ++ stars i = b ++ stars j -> a = b /\ i = j).
  { assert (St : forall i j, stars i = stars j -> i = j).
    { intros i j Q. apply (f_equal (@length _)) in Q. unfold stars in Q. now rewrite !repeat_length in Q. }
    induction a as [|c a IH]; intros [|d b] i j Na Nb Q; cbn in Q.
    - auto.
    - destruct i; [discriminate|]. injection Q as <- Q. elim Nb. now left.
    - destruct j; [discriminate|]. injection Q as -> Q. elim Na. now left.
    - injection Q as -> Q. destruct (IH b i j) as (-> & ->); auto; intro; [apply Na|apply Nb]; now right. }
  apply A in E as (E1 & E2); auto. apply Inj in E1. rewrite (surjective_pairing (core t)), (surjective_pairing (core u)). congruence.
Qed.
Print Assumptions c47_ids_distinguish.

(* CleanType on its own is not idempotent: a const pointer to const keeps the const
   of the pointee the first time. *)
Theorem c47_strip_not_idempotent_refuted : exists t c, cpp_type t = true /\ no_fun t = true /\ clean t = Ok c /\ clean c <> Ok c /\ c <> canonical t.
Proof. exists (CConst (CPtr (CConst (CBase 0)))), (CPtr (CConst (CBase 0))). cbv. repeat split; discriminate. Qed.
Print Assumptions c47_strip_not_idempotent_refuted.
Theorem c47_strip_idempotent_twice : forall t c, cpp_type t = true -> no_fun t = true -> clean t = Ok c ->
  clean c = Ok (canonical t) /\ clean (canonical t) = Ok (canonical t).
Proof.
  intros t c W F E. split; [|apply pointers_facts].
  pose proof (c47_same_type_object (fun _ => []) t W F) as Q. unfold get_type in Q. rewrite E in Q. cbn [bind] in Q.
  apply bind_Ok in Q as (l & _ & Q). apply bind_Ok in Q as (c2 & E2 & Q). apply bind_Ok in Q as (r & _ & Q). congruence.
Qed.
Print Assumptions c47_strip_idempotent_twice.
(* ... and does not terminate on pointers to functions *)
Theorem c47_function_pointer_diverges_refuted : forall n fuel, clean_f fuel (CPtr (CFun n)) = OutOfFuel.
Proof. intros n fuel. induction fuel as [|fuel IH]; auto. cbn [clean_f]. cbn [decay]. now rewrite IH. Qed.
Print Assumptions c47_function_pointer_diverges_refuted.

Example c47_ex : let t := CLRef (CConst (CPtr (CConst (CPtr (CConst (CBase 0)))))) in
  cpp_type t = true /\ no_fun t = true /\ typeId (fun _ => lit "int") t = Ok (lit "int**").
Proof. repeat split. Qed.
