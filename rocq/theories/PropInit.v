(* PropInit.v - C80: the order of static initialisation *)
From Coq Require String.
Import String.StringSyntax.
From Coq Require Import Permutation.
From Verif Require Import Base ModelCore ModelScope SpecScope ProofScope1 ProofScope2 ProofScope4 PropScope
  ModelRegistry SpecRegistry ProofRegistry1 ProofRegistry2 PropRegistry ModelInit SpecInit ProofInit.
Local Open Scope outcome_scope.

(* ---- the library's own initialisers ---- *)
Definition lib_init (ld : str -> lid) : list initialiser :=
  map (fun nm => IType [] nm (ld nm))
    [lit "void"; lit "bool"; lit "char"; lit "signed char"; lit "unsigned char";
     lit "short int"; lit "unsigned short int"; lit "int"; lit "unsigned int";
     lit "long int"; lit "unsigned long int"; lit "long long int"; lit "unsigned long long int";
     lit "float"; lit "double"; lit "long double"]
  ++ [IType [lit "std"] (lit "string") (ld (lit "std::string"));
      IType [lit "reflect"] (lit "Type") (ld (lit "reflect::Type"));
      IType [lit "reflect"] (lit "Value") (ld (lit "reflect::Value"))]
  ++ map (fun p => IAlias (fst p) (snd p)) lib_aliases.

(* these are the registrations of the library's source files *)
Theorem c80_library_initialisers : forall ld,
  map init_action (lib_init ld) = map (fun id => AAdd id (ld id)) lib_types ++ lib_alias_acts.
Proof. intro ld. reflexivity. Qed.
Print Assumptions c80_library_initialisers.

(* C80, main statement: whatever order the initialisers of the translation units run in, all of
   them succeed and no later lookup, registration, listing or loader can tell the difference. *)
Theorem c80_any_order : forall P L L', init_ok L -> Permutation L L' ->
  exists s s', start P (map init_action L) = (s, Ok tt) /\ start P (map init_action L') = (s', Ok tt) /\
  (exists l l', types (r_scopes s) 0 true = Ok l /\ types (r_scopes s') 0 true = Ok l' /\ Permutation l l') /\
  forall h, let t := run P s h in let t' := run P s' h in
    (forall id, snd (get P t id) = snd (get P t' id)) /\
    (forall a, snd (step P t a) = snd (step P t' a)) /\
    r_objs t = r_objs t' /\ r_log t = r_log t' /\
    (forall name, hasType (r_scopes t) 0 name = hasType (r_scopes t') 0 name).
Proof.
  intros P L L' OK Pm. destruct (start_all P L OK) as (s & E & SD).
  destruct (start_all P L' (init_ok_perm _ _ Pm OK)) as (s' & E' & SD').
  assert (SE : forall i, In i L <-> In i L').
  { intro i. split; apply Permutation_in; [exact Pm|now apply Permutation_sym]. }
  pose proof (started_req _ _ _ _ SE SD SD') as Q.
  exists s, s'. split; auto. split; auto. split.
  - assert (W : forall M, init_ok M -> Forall wop_ok (ops_of M)).
    { intros M OM. apply Forall_forall. intros o Ho. destruct (ops_only _ _ Ho) as (x & c & ->). apply In_ops in Ho as (l & Ho).
      cbn. eapply (io_names _ OM); eauto. }
    destruct (c26_recursive_listing _ _ (W L OK) (sd_run _ _ SD)) as (l & El & ND & Hl).
    destruct (c26_recursive_listing _ _ (W L' (init_ok_perm _ _ Pm OK)) (sd_run _ _ SD')) as (l' & El' & ND' & Hl').
    exists l, l'. split; auto. split; auto. apply NoDup_Permutation; auto. intro nm. rewrite Hl, Hl'.
    unfold reg_type. split; intros (x & c & R & ->); exists x, c; split; auto; apply In_ops in R as (ll & R); apply In_ops; exists ll; now apply SE.
  - intros h t t'. pose proof (run_req P h s s' Q) as Qh. fold t t' in Qh. repeat split.
    + intro id. apply (get_req P t t' id Qh).
    + intro a. apply (step_req P t t' a Qh).
    + apply (q_objs _ _ Qh).
    + apply (q_log _ _ Qh).
    + intro name. unfold hasType. apply (hasType_f_eq _ _ (q_scopes _ _ Qh) _ _ []); reflexivity.
Qed.
Print Assumptions c80_any_order.

(* Every registered class is then known to the registry and to the global scope, and every alias
   designates its class. *)
Theorem c80_all_registered : forall P L, init_ok L ->
  exists s, start P (map init_action L) = (s, Ok tt) /\ reachable P s /\
    (forall x c l, In (IType x c l) L -> In (qname (x ++ [c]), l) (r_loaders s) /\ vtype (r_scopes s) x c) /\
    (forall id al, In (IAlias id al) L -> names s al id) /\
    (forall id, has_loader s id -> exists x c l, In (IType x c l) L /\ id = qname (x ++ [c])) /\
    r_objs s = [].
Proof.
  intros P L OK. destruct (start_all P L OK) as (s & E & SD). exists s. split; auto. split; [|split; [|split; [|split]]].
  - exists (map init_action L). unfold start in E.
    assert (X : forall acts st st', run_actions (get P) P st acts = (st', Ok tt) -> st' = run P st acts).
    { induction acts as [|a acts IH]; intros st st' H; [cbn in *; congruence|].
      rewrite run_actions_cons in H. cbn [run fold_left]. fold (run P (fst (step P st a)) acts).
      unfold step. destruct (run_actions (get P) P st [a]) as (st1 & r). destruct r as [u| | | |]; try discriminate. cbn [fst]. now apply IH. }
    now apply X.
  - intros x c l Hin. split.
    + apply afind_In. apply (sd_load _ _ SD). eauto.
    + apply (ag_type _ _ (sd_sc _ _ SD)). unfold reg_type. apply In_ops. eauto.
  - intros id al Hin. left. apply afind_In. now apply (sd_alias _ _ SD).
  - intros id Hl. unfold has_loader in Hl. destruct (afind id (r_loaders s)) as [l|] eqn:El.
    + apply (sd_load _ _ SD) in El as (x & c & Hin & ->). eauto.
    + apply afind_None in El. contradiction.
  - apply (sd_objs _ _ SD).
Qed.
Print Assumptions c80_all_registered.

Lemma nocolon_component c : c <> [] -> level c = 0%Z -> ~ In ch_colon c -> component c.
Proof. intros N Lv C. repeat split; auto. intros (p & q & -> & _). apply C, in_or_app. right. now left. Qed.
Ltac comp := apply nocolon_component; [discriminate|reflexivity|
  let H := fresh in intro H; vm_compute in H; repeat destruct H as [H|H]; try discriminate; try contradiction].

Definition lib_names : list (list str) :=
  map (fun nm => [nm])
    [lit "void"; lit "bool"; lit "char"; lit "signed char"; lit "unsigned char";
     lit "short int"; lit "unsigned short int"; lit "int"; lit "unsigned int";
     lit "long int"; lit "unsigned long int"; lit "long long int"; lit "unsigned long long int";
     lit "float"; lit "double"; lit "long double"] ++
  [[lit "std"; lit "string"]; [lit "reflect"; lit "Type"]; [lit "reflect"; lit "Value"]].

Lemma lib_names_in ld x c l : In (IType x c l) (lib_init ld) -> In (x ++ [c]) lib_names /\ l = ld (qname (x ++ [c])).
Proof.
  intro H. unfold lib_init in H. rewrite !in_app_iff in H. destruct H as [H|[H|H]].
  - apply in_map_iff in H as (nm & E & Hin). injection E as <- <- <-. split; [|reflexivity].
    apply in_or_app. left. cbn [app]. apply in_map_iff. exists nm. auto.
  - cbn [In] in H. destruct H as [H|[H|[H|[]]]]; injection H as <- <- <-; (split; [|reflexivity]);
      apply in_or_app; right; cbn [app In]; auto.
  - apply in_map_iff in H as (p & E & _). discriminate.
Qed.

Fixpoint prefixb (x y : list str) : bool :=
  match x, y with
  | [], _ => true
  | a :: x', b :: y' => str_eqb a b && prefixb x' y'
  | _ :: _, [] => false
  end.
Lemma prefixb_ok x : forall y, prefix x y -> prefixb x y = true.
Proof.
  induction x as [|a x IH]; intros y (z & ->); cbn; auto. apply andb_true_iff. split; [now apply str_eqb_eq|].
  apply IH. exists z. reflexivity.
Qed.
Lemma prefix_app_l (x y : list str) c : prefix x y -> prefix x (y ++ [c]).
Proof. intros (z & ->). exists (z ++ [c]). now rewrite app_assoc. Qed.

(* The library's initialisers are sound, so C80 applies to every program that links them. *)
Theorem c80_library_ok : forall ld, init_ok (lib_init ld).
Proof.
  intro ld. constructor.
  - intros x c l H. apply lib_names_in in H as (H & _). revert H. generalize (x ++ [c]). intros p H.
    assert (F : Forall (Forall component) lib_names).
    { unfold lib_names. cbn [map app]. repeat (apply Forall_cons; [repeat (apply Forall_cons; [comp|]); apply Forall_nil|]). apply Forall_nil. }
    rewrite Forall_forall in F. auto.
  - intros x c l y d l' H H' Pf. apply lib_names_in in H as (H & _), H' as (H' & _).
    assert (X : forallb (fun p => forallb (fun q => negb (prefixb p (removelast q))) lib_names) lib_names = true) by (vm_compute; reflexivity).
    rewrite forallb_forall in X. specialize (X _ H). rewrite forallb_forall in X. specialize (X _ H').
    rewrite removelast_app in X by discriminate. cbn [removelast] in X. rewrite app_nil_r in X.
    rewrite (prefixb_ok _ _ Pf) in X. discriminate.
  - intros x c l l' H H'. apply lib_names_in in H as (_ & ->), H' as (_ & ->). reflexivity.
  - intros id al H. unfold lib_init in H. rewrite !in_app_iff in H. destruct H as [H|[H|H]].
    + apply in_map_iff in H as (p & E & _). discriminate.
    + cbn [In] in H. destruct H as [H|[H|[H|[]]]]; discriminate.
    + apply in_map_iff in H as ((a & b) & E & Hin). cbn [fst snd] in E. injection E as <- <-.
      assert (X : forallb (fun p : str * str => match fst p, snd p with [], _ | _, [] => false | _, _ => true end) lib_aliases = true) by (vm_compute; reflexivity).
      rewrite forallb_forall in X. specialize (X _ Hin). cbn [fst snd] in X. destruct a; [discriminate X|]. destruct b; [discriminate X|]. split; discriminate.
  - intros id id' al H H'.
    assert (X : forall id0, In (IAlias id0 al) (lib_init ld) -> In (id0, al) lib_aliases).
    { intros id0 Y. unfold lib_init in Y. rewrite !in_app_iff in Y. destruct Y as [Y|[Y|Y]].
      - apply in_map_iff in Y as (p & E & _). discriminate.
      - cbn [In] in Y. destruct Y as [Y|[Y|[Y|[]]]]; discriminate.
      - apply in_map_iff in Y as ((a & b) & E & Hin). injection E as <- <-. exact Hin. }
    apply X in H, H'.
    assert (Z : forallb (fun p => forallb (fun q => implb (str_eqb (snd p) (snd q)) (str_eqb (fst p) (fst q))) lib_aliases) lib_aliases = true) by (vm_compute; reflexivity).
    rewrite forallb_forall in Z. specialize (Z _ H). rewrite forallb_forall in Z. specialize (Z _ H'). cbn [fst snd] in Z.
    assert (R : str_eqb al al = true) by now apply str_eqb_eq. rewrite R in Z. cbn in Z. now apply str_eqb_eq in Z.
  - unfold lib_init. rewrite !filter_app.
    assert (X : forall l, filter (fun i : initialiser => match i with IType _ _ _ => false | IAlias _ _ => true end)
       (map (fun nm => IType [] nm (ld nm)) l) = []) by (induction l; cbn; auto).
    rewrite X. cbn [filter app].
    assert (Y : forall l : list (str * str), filter (fun i : initialiser => match i with IType _ _ _ => false | IAlias _ _ => true end)
       (map (fun p => IAlias (fst p) (snd p)) l) = map (fun p => IAlias (fst p) (snd p)) l) by (induction l as [|p l IH]; cbn; [auto|now rewrite IH]).
    rewrite Y. apply FinFun.Injective_map_NoDup.
    + intros (a & b) (a' & b') E. cbn in E. congruence.
    + assert (D : forall a b : str * str, {a = b} + {a <> b}).
      { intros (a & b) (a' & b'). destruct (list_eq_dec N.eq_dec a a'), (list_eq_dec N.eq_dec b b'); [left; congruence|right; congruence|right; congruence|right; congruence]. }
      assert (K : NoDup (map snd lib_aliases)).
      { assert (B : (fix nd (l : list str) := match l with [] => true | a :: l' => negb (existsb (str_eqb a) l') && nd l' end) (map snd lib_aliases) = true) by (vm_compute; reflexivity).
        revert B. generalize (map snd lib_aliases). induction l as [|a l IH]; intro B; [constructor|].
        apply andb_true_iff in B as (B1 & B2). constructor; auto. intro Hin. apply negb_true_iff in B1.
        assert (E : existsb (str_eqb a) l = true) by (apply existsb_exists; exists a; split; auto; now apply str_eqb_eq). congruence. }
      apply (NoDup_map_inv snd). exact K.
Qed.
Print Assumptions c80_library_ok.

Lemma exact_inv n b : exact_width n = Some b -> In (n, b) [(8, BChar); (16, BShort); (32, BInt); (64, BLong)].
Proof.
  intro E. do 65 (destruct n as [|n]; [first [discriminate E|injection E as <-; cbn; tauto]|]). discriminate E.
Qed.
Lemma fast_inv n b : fast_width n = Some b -> In (n, b) [(8, BChar); (16, BLong); (32, BLong); (64, BLong)].
Proof.
  intro E. do 65 (destruct n as [|n]; [first [discriminate E|injection E as <-; cbn; tauto]|]). discriminate E.
Qed.
Lemma in_aliases id al : existsb (fun p => str_eqb id (fst p) && str_eqb al (snd p)) lib_aliases = true -> In (id, al) lib_aliases.
Proof.
  intro H. apply existsb_exists in H as ((a & b) & Hin & E). apply andb_true_iff in E as (E1 & E2).
  apply str_eqb_eq in E1, E2. cbn in E1, E2. now subst.
Qed.
Lemma alias_of_cpp_name al s b : cpp_name al s b -> In (builtin_id s b, al) lib_aliases.
Proof.
  intro H. destruct H as [s n b E|s n b E|s n b E|s|s| | |s|s|s].
  1-2: apply exact_inv in E; cbn [In] in E; repeat destruct E as [E|E]; try contradiction; injection E as <- <-; destruct s; apply in_aliases; vm_compute; reflexivity.
  1: apply fast_inv in E; cbn [In] in E; repeat destruct E as [E|E]; try contradiction; injection E as <- <-; destruct s; apply in_aliases; vm_compute; reflexivity.
  all: try (destruct s; apply in_aliases; vm_compute; reflexivity).
  all: apply in_aliases; vm_compute; reflexivity.
Qed.

(* In every program that links the library, in whatever order its initialisers run and whatever
   it does afterwards (short of giving a builtin type another name as an alias), each
   standard name of an integer type designates the reflection of the right builtin type. *)
Theorem c80_integer_names : forall P ld L al sg b, init_ok L -> incl (lib_init ld) L -> cpp_name al sg b ->
  exists s, start P (map init_action L) = (s, Ok tt) /\
  forall h, let t := run P s h in
    ~ In (builtin_id sg b) (map fst (r_aliases t)) ->
    names t al (builtin_id sg b) /\ get P t al = get P t (builtin_id sg b).
Proof.
  intros P ld L al sg b OK Inc C. destruct (start_all P L OK) as (s & E & SD). exists s. split; auto. intros h t N.
  assert (A : afind al (r_aliases s) = Some (builtin_id sg b)).
  { apply (sd_alias _ _ SD), Inc. unfold lib_init. rewrite !in_app_iff. right. right.
    apply in_map_iff. exists (builtin_id sg b, al). split; auto. now apply alias_of_cpp_name. }
  pose proof (x_aliases _ _ (run_rext P s h (sd_inv _ _ SD)) _ _ A) as A'. fold t in A'. split.
  - left. now apply afind_In.
  - assert (R1 : resolve t al = builtin_id sg b) by (unfold resolve; now rewrite A').
    assert (R2 : resolve t (builtin_id sg b) = builtin_id sg b) by (unfold resolve; apply afind_None in N; now rewrite N).
    unfold get. cbn [get_f]. now rewrite R1, R2.
Qed.
Print Assumptions c80_integer_names.

(* A case: the library and a program with two classes and an alias, in two orders. *)
Definition exInit : list initialiser :=
  [IType [lit "app"] (lit "A") 0; IAlias (lit "app::A") (lit "A"); IType [lit "app"; lit "in"] (lit "B") 1].
Example c80_case : let P := Prog [[AGet (lit "app::in::B")]; [AGet (lit "A")]; []] [] in
  let run_in L := snd (get P (fst (start P (map init_action (lib_init (fun _ => 2) ++ L)))) (lit "A")) in
  run_in exInit = Ok 0 /\ run_in (rev exInit) = Ok 0 /\
  snd (get P (fst (start P (map init_action (rev (lib_init (fun _ => 2)))))) (lit "uint_fast16_t")) = Ok 0.
Proof. vm_compute. auto. Qed.

(* False of the code, 1: a class and a class nested in it.  Reflected inner class first, the
   program starts; outer class first, it aborts before main. *)
Theorem c80_nested_class_refuted : forall P, let outer := AAdd (lit "A") 0 in let inner := AAdd (lit "A::B") 1 in
  snd (start P [inner; outer]) = Ok tt /\ snd (start P [outer; inner]) = Abort.
Proof. intro P. split; reflexivity. Qed.
Print Assumptions c80_nested_class_refuted.

(* False of the code, 2: an initialiser that looks a type up, as the body of a reflectScope does
   for the argument types of its functions (dsl/scope.h 30-47, 54-57, function.tcc). *)
Theorem c80_early_lookup_refuted : exists P, let reg := AAdd (lit "A") 0 in let use := AGet (lit "A") in
  snd (start P [reg; use]) = Ok tt /\ snd (start P [use; reg]) = Abort.
Proof. exists (Prog [[]] []). split; reflexivity. Qed.
Print Assumptions c80_early_lookup_refuted.
