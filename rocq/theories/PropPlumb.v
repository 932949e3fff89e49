(* PropPlumb.v - property theorems C56-C58: what reflectPlumbing(), the bodies of
   the library's own types and reflectOperators() leave on a type.  Statements use
   the bodies of ModelPlumb and the specification of SpecPlumb. *)
From Coq Require String.
Import String.StringSyntax.
From Coq Require Import Relations.
From Verif Require Import Base ModelCore SpecCore ProofCore ProofMatch ExCore ProofCore2 ModelValue SpecValue ProofValue
  ModelPlumb SpecPlumb ProofPlumb ProofPlumb2 ProofPlumb3 ProofPlumb4 PropValue.

(* ---- a concrete world: exHeap plus four types not loaded yet ---- *)
Definition plumbTypes : list typerec := exTypes ++
  [ newType (lit "Widget"); newType (lit "std::vector<int>"); newType (lit "std::shared_ptr<Grand>"); newType (lit "Grand*");
    Type_ (lit "int*") None [lit "pointer"] (lit "*") (Some 2) [] []; newType (lit "std::unique_ptr<int>") ].
Definition plumbHeap : heap := Heap plumbTypes 0 1.
Lemma plumbHeap_wf : wf_heap plumbHeap.
Proof. apply wf_check_ok. reflexivity. Qed.
Definition some_caps := Caps true true true true true.
Definition move_only := Caps true false true false true.

(* ===== C56: reflectPlumbing() ===== *)
Theorem c56_accepted : forall H T id k b, wf_heap H -> fresh H T id -> id <> lit "operator=" -> T <> h_value H ->
  loads H T id k (plumbing id T k b).
Proof.
  intros H T id k b W F NO NVal. apply (loads_of H T id k b _ []); auto.
  - now apply plumbing_loadable.
  - intros. now apply plumbing_body.
Qed.
Print Assumptions c56_accepted.

(* calling the constructors *)
Theorem c56_constructor_choice : forall H T id k b H' args, wf_heap H -> fresh H T id -> id <> lit "operator=" ->
  T <> h_void H -> T <> h_value H -> h_value H <> h_void H ->
  register H T (plumbing id T k b) = Ok H' -> k_move k = true -> Forall (fun a => a_type a = T) args ->
  exists os, function H' T id = Ok os /\ overloads_resolve H' os (ret_value H') args = Ok (ctor_choice id T k b args).
Proof.
  intros H T id k b H' args W F NO NV NVal VV E Km Fa.
  destruct (register_effect _ _ _ _ (plumbing_loadable H T id k b W F NO)) as (H1 & E1 & W1 & OC & C).
  rewrite E in E1. injection E1 as <-. destruct OC as (_ & _ & Ev & El).
  pose proof (plumbing_body H' T id k b NO C) as PB.
  exists (fns_of id (plumbing id T k b)). split.
  - eapply ctors_lookup; eauto.
  - eapply (ctor_resolution H' T id k b (plumbing id T k b) []); eauto; congruence.
Qed.
Print Assumptions c56_constructor_choice.

Theorem c56_not_movable_no_constructor : forall H T id k b H', wf_heap H -> fresh H T id -> id <> lit "operator=" ->
  register H T (plumbing id T k b) = Ok H' -> k_move k = false ->
  function H' T id = Abort /\ hasFunction H' T id = Ok false.
Proof.
  intros H T id k b H' W F NO E Km.
  destruct (register_effect _ _ _ _ (plumbing_loadable H T id k b W F NO)) as (H1 & E1 & W1 & OC & C).
  rewrite E in E1. injection E1 as <-.
  pose proof (plumbing_body H' T id k b NO C) as PB.
  eapply (no_ctors H' T id k b (plumbing id T k b) []); eauto.
Qed.
Print Assumptions c56_not_movable_no_constructor.

(* assigning *)
Theorem c56_assignment_choice : forall H T id k b H' obj a, wf_heap H -> fresh H T id -> id <> lit "operator=" ->
  T <> h_void H -> T <> h_value H -> h_value H <> h_void H ->
  register H T (plumbing id T k b) = Ok H' -> a_type obj = T -> a_type a = T ->
  if k_copy_assign k || k_move_assign k
  then exists os, function H' T (lit "operator=") = Ok os /\
         overloads_resolve H' os (ret_value H') [obj; a] = Ok (assign_choice T k b obj a)
  else function H' T (lit "operator=") = Abort.
Proof.
  intros H T id k b H' obj a W F NO NV NVal VV E Eo Ea.
  destruct (register_effect _ _ _ _ (plumbing_loadable H T id k b W F NO)) as (H1 & E1 & W1 & OC & C).
  rewrite E in E1. injection E1 as <-. destruct OC as (_ & _ & Ev & El).
  pose proof (plumbing_body H' T id k b NO C) as PB.
  destruct (k_copy_assign k || k_move_assign k) eqn:Ek.
  - exists (fns_of (lit "operator=") (plumbing id T k b)). split.
    + eapply assign_lookup; eauto.
    + eapply (assign_resolution H' T id k b (plumbing id T k b) []); eauto; congruence.
  - destruct (carries_function H' T id _ (lit "operator=") C W1) as [_ X]. apply X.
    rewrite plumbing_assigns by auto. apply Bool.orb_false_iff in Ek as [-> ->]. reflexivity.
Qed.
Print Assumptions c56_assignment_choice.

(* copy() and move() of a handle on such a type *)
Theorem c56_copy_and_move : forall n E H T id k b H' st v, wf_heap H -> fresh H T id -> id <> lit "operator=" ->
  T <> h_void H -> T <> h_value H -> h_value H <> h_void H ->
  register H T (plumbing id T k b) = Ok H' ->
  cpp_copyable E T = k_copy k -> cpp_movable E T = k_move k -> k_copy k = true -> k_move k = true -> v_type v = T ->
  a_ref (v_arg v) <> RValue ->
  (exists w, value_copy (S n) E H' st v = Ok (w, St (S (st_next st)) (st_log st ++ [(b + 1, [PRef (v_addr v)])])) /\ fresh_copy v st w) /\
  (a_const (v_arg v) = false -> exists w,
     value_move (S n) E H' st v = (Ok (w, St (S (st_next st)) (st_log st ++ [(b + 3, [PMove (v_addr v)])])), void_value H') /\ fresh_copy v st w).
Proof.
  intros n E H T id k b H' st v W F NO NV NVal VV Er Ec Em Kc Km Et Nr.
  destruct (register_effect _ _ _ _ (plumbing_loadable H T id k b W F NO)) as (H1 & E1 & W1 & OC & C).
  rewrite Er in E1. injection E1 as <-. pose proof OC as (_ & _ & Ev & El).
  pose proof (plumbing_body H' T id k b NO C) as PB.
  assert (PL : plumbed E H' T T).
  { eapply (plumbing_plumbed H' T id k b (plumbing id T k b) []); eauto; congruence. }
  assert (VT : valid H' T) by (destruct C as (t & Et' & _); eapply tget_valid; eauto).
  assert (D : h_value H' <> h_void H') by congruence.
  assert (Lk : function H' T id = Ok (fns_of id (plumbing id T k b))) by (eapply ctors_lookup; eauto).
  pose proof C as (t & Et' & Eid & _).
  assert (MC : has_move_ctor H' T).
  { exists t, (fns_of id (plumbing id T k b)), (Fn id (Arg T Copy false) [Arg T RValue false] (b + 3)).
    rewrite Eid. repeat split; auto. rewrite plumbing_ctors by auto. rewrite Km.
    apply in_or_app. right. apply in_or_app. right. now left. }
  assert (CC : forall u, v_type u = T -> v_addr u = v_addr v ->
    exists q, construct (S n) E H' st T [CVal u] =
      Ok (fresh_of T st, logged st (if ref_eqb (a_ref (v_arg u)) RValue && negb (a_const (v_arg u)) then b + 3 else b + 1) [q]) /\
    (q = PRef (v_addr v) \/ (q = PMove (v_addr v) /\ a_ref (v_arg u) = RValue /\ a_const (v_arg u) = false)) /\
    (a_ref (v_arg u) = RValue -> a_const (v_arg u) = false -> q = PMove (v_addr v))).
  { intros u Eu Ea. destruct (construct_full n E H' st u) as (code & q & _ & Hcode & Hq & Hm & Hc); auto; try (rewrite Eu; assumption).
    rewrite Eu, Ea in *. exists q.
    assert (R : overloads_resolve H' (fns_of id (plumbing id T k b)) (ret_value H') [v_arg u] = Ok (ctor_choice id T k b [v_arg u])).
    { eapply (ctor_resolution H' T id k b (plumbing id T k b) []); eauto; try congruence. }
    unfold ctor_choice in R. rewrite Kc in R.
    destruct (ref_eqb (a_ref (v_arg u)) RValue && negb (a_const (v_arg u))) eqn:B.
    - rewrite (Hcode t _ _ Et' ltac:(rewrite Eid; exact Lk) R) in Hc. split; [exact Hc|]. split; auto.
    - rewrite (Hcode t _ _ Et' ltac:(rewrite Eid; exact Lk) R) in Hc. split; [exact Hc|]. split; auto. }
  destruct (plumbing_copiable H' T id k b (plumbing id T k b) [] W1 PB NO ltac:(congruence)) as [Cp Mv].
  split.
  - destruct (CC v Et eq_refl) as (q & Ecn & Hq & _). exists (fresh_of T st). split.
    + unfold value_copy. rewrite Et, Cp, Kc, Km. cbn [bind negb andb]. rewrite Ecn.
      replace (ref_eqb (a_ref (v_arg v)) RValue) with false by (destruct (a_ref (v_arg v)); cbn; congruence). cbn [andb].
      destruct Hq as [->|(_ & X & _)]; [reflexivity|contradiction].
    + rewrite <- Et. repeat split.
  - intros Nc. destruct (CC (rvalue v) Et eq_refl) as (q & Ecn & _ & Hm). exists (fresh_of T st). split.
    + unfold value_move. rewrite Et, Mv, Km. rewrite Ecn. cbn. rewrite Nc. cbn. rewrite (Hm eq_refl Nc). reflexivity.
    + rewrite <- Et. repeat split.
Qed.
Print Assumptions c56_copy_and_move.

Example c56_ex : fresh plumbHeap 10 (lit "Widget") /\
  (exists H', register plumbHeap 10 (plumbing (lit "Widget") 10 move_only 50) = Ok H' /\
     isCopiable H' 10 = Ok false /\ isMovable H' 10 = Ok true /\
     function H' 10 (lit "Widget") = Ok [ Fn (lit "Widget") (Arg 10 Copy false) [] 50;
                                          Fn (lit "Widget") (Arg 10 Copy false) [Arg 10 RValue false] 53 ]) /\
  (exists H', register plumbHeap 10 (plumbing (lit "Widget") 10 some_caps 50) = Ok H' /\
     value_copy 1 (Cpp (fun _ => true) (fun _ => true) (fun _ _ => (99, 0%N)) (fun _ _ => void_value plumbHeap)) H' st0
       (Val (Arg 10 LValue false) (7, 0%N) false)
     = Ok (Val (Arg 10 LValue false) (1000, 0%N) true, St 1001 [(51, [PRef (7, 0%N)])])).
Proof. split; [reflexivity|]. split; eexists; repeat split. Qed.

(* ===== C57: the library's own types ===== *)
Theorem c57_raw_pointer : forall H T P B pid k b, wf_heap H -> fresh H T (pid ++ lit "*") -> T <> h_value H ->
  pid <> lit "operator" -> valid H B -> may_point H T P ->
  loads H T (pid ++ lit "*") k (rawPointer (pid ++ lit "*") T P B k b).
Proof.
  intros H T P B pid k b W F NVal NP VB MP.
  apply (loads_ext H T _ k b (pointer_ext T P B b) _ eq_refl); auto.
  - apply (star_not_op pid NP).
  - apply pointer_extension; auto. eapply tget_valid; eauto.
Qed.
Print Assumptions c57_raw_pointer.

Theorem c57_number : forall H T PT R id n k b, wf_heap H -> fresh H T id -> T <> h_value H ->
  ~ In id [lit "operator="; lit "new"; lit "operator+"] -> valid H PT -> valid H R ->
  loads H T id k (number id T PT R n k b).
Proof.
  intros H T PT R id n k b W F NVal NI VP VR.
  apply (loads_ext H T _ k b (number_ext T PT R n b) _ eq_refl); auto.
  - intros ->. apply NI. now left.
  - apply number_extension; auto; [intros ->; apply NI; right; now left|intros ->; apply NI; right; right; now left|eapply tget_valid; eauto].
Qed.
Print Assumptions c57_number.

Theorem c57_string : forall H T PT Z k b, wf_heap H -> fresh H T (lit "std::string") -> T <> h_value H ->
  valid H PT -> valid H Z ->
  loads H T (lit "std::string") k (stdString (lit "std::string") T PT Z k b).
Proof.
  intros H T PT Z k b W F NVal VP VZ.
  apply (loads_ext H T _ k b (string_ext T PT Z b) _ eq_refl); auto; [discriminate|].
  apply string_extension; auto; try discriminate. eapply tget_valid; eauto.
Qed.
Print Assumptions c57_string.

Theorem c57_vector : forall H T V Z vid k b, let id := lit "std::vector<" ++ vid ++ lit ">" in
  wf_heap H -> fresh H T id -> T <> h_value H -> valid H V -> valid H Z -> valid H (h_void H) ->
  loads H T id k (stdVector id T V Z (h_void H) k b).
Proof.
  intros H T V Z vid k b id W F NVal VV VZ Vd.
  apply (loads_ext H T _ k b (vector_ext T V Z (h_void H) b) _ eq_refl); auto; [discriminate|].
  apply vector_extension; auto. eapply tget_valid; eauto.
Qed.
Print Assumptions c57_vector.

Theorem c57_map : forall H T K V KV Z prefix kid vid k b, prefix = lit "std::map<" \/ prefix = lit "std::unordered_map<" ->
  let id := prefix ++ kid ++ lit "," ++ vid ++ lit ">" in
  wf_heap H -> fresh H T id -> T <> h_value H -> valid H K -> valid H V -> valid H KV -> valid H Z ->
  loads H T id k (stdMap id T K V KV Z k b).
Proof.
  intros H T K V KV Z prefix kid vid k b Ep id W F NVal VK VV VKV VZ.
  apply (loads_ext H T _ k b (map_ext T K V KV Z b) _ eq_refl); auto; [destruct Ep as [->| ->]; discriminate|].
  apply map_extension; auto. eapply tget_valid; eauto.
Qed.
Print Assumptions c57_map.

(* PP is the raw pointer type to the same pointee *)
Lemma smart_loads H shared T P PP B pid tp k b :
  let id := smart_id shared pid in
  wf_heap H -> fresh H T id -> T <> h_value H -> valid H B -> valid H (h_void H) -> may_point H T P ->
  tget H PP = Some tp -> t_id tp = pid ++ lit "*" -> points_to H PP (lit "*") P -> PP <> h_value H ->
  loads H T id k (RPointer (smart_kind shared) P :: plumbing id T k b ++ smart_ext id T P PP B b (smart_more shared T PP (h_void H) b)).
Proof.
  intros id W F NVal VB Vd MP Ep Ei Pp Npv. pose proof MP as [VP _].
  assert (VT : valid H T) by (eapply tget_valid; eauto). assert (VPP : valid H PP) by (eapply tget_valid; eauto).
  assert (NPT : PP <> T).
  { intros ->. unfold points_to in Pp. destruct Pp as (x & Ex & Hx). unfold fresh in F. rewrite Ex in F. injection F as ->. cbn in Hx.
    destruct Hx as [[] _]. }
  assert (NK : forall p, ~ points_to H PP (smart_kind shared) p).
  { intros p (x & Ex & Hx). destruct Pp as (y & Ey & Hy). rewrite Ex in Ey. injection Ey as <-.
    destruct Hx as (_ & Kx & _), Hy as (_ & Ky & _). rewrite Kx in Ky. destruct shared; discriminate Ky. }
  assert (NO : id <> lit "operator=") by (unfold id, smart_id, smart_kind; destruct shared; discriminate).
  destruct (smart_extension H shared T P PP B pid b VT VB VP VPP Vd NVal NPT Npv NK) as [X NP].
  refine (loads_of H T id k b _ _ _ NO NVal _).
  - eapply pointer_first_loadable; eauto.
  - intros H' W' OC C.
    eapply smart_plumbed; eauto. intros t Et. rewrite Ep in Et. injection Et as <-. rewrite Ei.
    intro E. apply (f_equal (@rev _)) in E. rewrite rev_app_distr in E. cbn in E. discriminate.
Qed.

Theorem c57_shared_ptr : forall H T P PP B pid tp k b, let id := lit "std::shared_ptr<" ++ pid ++ lit ">" in
  wf_heap H -> fresh H T id -> T <> h_value H -> valid H B -> valid H (h_void H) -> may_point H T P ->
  tget H PP = Some tp -> t_id tp = pid ++ lit "*" -> points_to H PP (lit "*") P -> PP <> h_value H ->
  loads H T id k (sharedPtr id T P PP B (h_void H) k b).
Proof.
  intros. unfold sharedPtr, smartPtr. rewrite <- app_assoc.
  eapply (smart_loads H true T P PP B pid tp k b); eauto.
Qed.
Print Assumptions c57_shared_ptr.

Theorem c57_unique_ptr : forall H T P PP B pid tp k b, let id := lit "std::unique_ptr<" ++ pid ++ lit ">" in
  wf_heap H -> fresh H T id -> T <> h_value H -> valid H B -> valid H (h_void H) -> may_point H T P ->
  tget H PP = Some tp -> t_id tp = pid ++ lit "*" -> points_to H PP (lit "*") P -> PP <> h_value H ->
  loads H T id k (uniquePtr id T P PP B (h_void H) k b).
Proof.
  intros. unfold uniquePtr, smartPtr. rewrite <- app_assoc.
  eapply (smart_loads H false T P PP B pid tp k b); eauto.
Qed.
Print Assumptions c57_unique_ptr.

Example c57_ex : exists H1 H2 H3 H4,
  register plumbHeap 11 (stdVector (lit "std::vector<int>") 11 2 2 0 some_caps 50) = Ok H1 /\
  register H1 13 (rawPointer (lit "Grand*") 13 9 2 some_caps 70) = Ok H2 /\
  register H2 12 (sharedPtr (lit "std::shared_ptr<Grand>") 12 9 13 2 0 some_caps 90) = Ok H3 /\
  register H3 15 (uniquePtr (lit "std::unique_ptr<int>") 15 2 14 2 0 move_only 110) = Ok H4 /\
  (exists t, tget H4 12 = Some t /\ isPointer t = true) /\ isChildOf H4 12 12 = Ok true /\ isCopiable H4 15 = Ok false /\ isMovable H4 15 = Ok true /\
  hasFunction H4 11 (lit "push_back") = Ok true.
Proof.
  do 4 eexists. split; [vm_compute; reflexivity|]. split; [vm_compute; reflexivity|]. split; [vm_compute; reflexivity|].
  split; [vm_compute; reflexivity|]. split; [eexists; split; vm_compute; reflexivity|]. repeat split; vm_compute; reflexivity.
Qed.

(* ===== C58: reflectOperators() ===== *)
Theorem c58_accepted : forall H T I id k ops o b, wf_heap H -> fresh H T id -> T <> h_value H -> ~ is_operator id ->
  valid H I -> ops_valid H ops -> ops (lit "operator*") = None ->
  loads H T id k (plumbing id T k b ++ operators T I ops o (b + 5)).
Proof.
  intros H T I id k ops o b W F NVal NI VI OV Ns. rewrite operators_split.
  unfold reflectOp at 1. rewrite Ns, app_nil_r.
  apply (loads_ext H T _ k b _ _ eq_refl); auto.
  - intros ->. apply NI. eexists. cbn. reflexivity.
  - apply opers_extension; auto. eapply tget_valid; eauto.
Qed.
Print Assumptions c58_accepted.

(* every operator the class has is found under its name *)
Theorem c58_operators_found : forall H T I id k ops o b H' op ret args code, wf_heap H -> fresh H T id -> T <> h_value H ->
  ~ is_operator id -> valid H I -> ops_valid H ops -> ops (lit "operator*") = None ->
  register H T (plumbing id T k b ++ operators T I ops o (b + 5)) = Ok H' ->
  In op operator_names ->
  ops op = Some (ret, args, code) ->
  function H' T op = Ok [Fn op ret args code].
Proof.
  intros H T I id k ops o b H' op ret args code W F NVal NI VI OV Ns E Io Eo.
  destruct (c58_accepted H T I id k ops o b W F NVal NI VI OV Ns) as (H1 & E1 & W1 & _ & C & _).
  rewrite E in E1. injection E1 as <-.
  assert (X : fns_of op (plumbing id T k b ++ operators T I ops o (b + 5)) = [Fn op ret args code]).
  { apply opers_lookup; auto. now apply operator_names_known. }
  destruct (carries_function H' T id _ op C W1) as [Y _]. rewrite X in Y. apply Y. discriminate.
Qed.
Print Assumptions c58_operators_found.

(* the prefix and the postfix forms are two overloads *)
Theorem c58_increment_found : forall H T I id k ops o b H', wf_heap H -> fresh H T id -> T <> h_value H ->
  ~ is_operator id -> valid H I -> ops_valid H ops -> ops (lit "operator*") = None ->
  register H T (plumbing id T k b ++ operators T I ops o (b + 5)) = Ok H' ->
  function H' T (lit "operator++") =
    match has_inc_pre o, has_inc_post o with
    | true, true => Ok [ Fn (lit "operator++") (Arg T LValue false) [Arg T LValue false] (b + 5);
                         Fn (lit "operator++") (Arg T Copy false) [Arg T LValue false; Arg I Copy false] (b + 7) ]
    | true, false => Ok [ Fn (lit "operator++") (Arg T LValue false) [Arg T LValue false] (b + 5) ]
    | false, true => Ok [ Fn (lit "operator++") (Arg T Copy false) [Arg T LValue false; Arg I Copy false] (b + 7) ]
    | false, false => Abort
    end.
Proof.
  intros H T I id k ops o b H' W F NVal NI VI OV Ns E.
  destruct (c58_accepted H T I id k ops o b W F NVal NI VI OV Ns) as (H1 & E1 & W1 & _ & C & _).
  rewrite E in E1. injection E1 as <-.
  assert (X : fns_of (lit "operator++") (plumbing id T k b ++ operators T I ops o (b + 5))
    = fns_of (lit "operator++") (opIncDec T I o (b + 5))).
  { apply opers_incdec; auto. }
  destruct (carries_function H' T id _ (lit "operator++") C W1) as [Y Y']. rewrite X in Y, Y'.
  replace (b + 7) with (b + 5 + 2) by lia.
  destruct o as [[] [] [] []]; cbn -[lit Nat.add] in Y, Y' |- *;
    first [apply Y'; reflexivity | apply Y; discriminate].
Qed.
Print Assumptions c58_increment_found.
Theorem c58_decrement_found : forall H T I id k ops o b H', wf_heap H -> fresh H T id -> T <> h_value H ->
  ~ is_operator id -> valid H I -> ops_valid H ops -> ops (lit "operator*") = None ->
  register H T (plumbing id T k b ++ operators T I ops o (b + 5)) = Ok H' ->
  function H' T (lit "operator--") =
    match has_dec_pre o, has_dec_post o with
    | true, true => Ok [ Fn (lit "operator--") (Arg T LValue false) [Arg T LValue false] (b + 6);
                         Fn (lit "operator--") (Arg T Copy false) [Arg T LValue false; Arg I Copy false] (b + 8) ]
    | true, false => Ok [ Fn (lit "operator--") (Arg T LValue false) [Arg T LValue false] (b + 6) ]
    | false, true => Ok [ Fn (lit "operator--") (Arg T Copy false) [Arg T LValue false; Arg I Copy false] (b + 8) ]
    | false, false => Abort
    end.
Proof.
  intros H T I id k ops o b H' W F NVal NI VI OV Ns E.
  destruct (c58_accepted H T I id k ops o b W F NVal NI VI OV Ns) as (H1 & E1 & W1 & _ & C & _).
  rewrite E in E1. injection E1 as <-.
  assert (X : fns_of (lit "operator--") (plumbing id T k b ++ operators T I ops o (b + 5))
    = fns_of (lit "operator--") (opIncDec T I o (b + 5))).
  { apply opers_decdec; auto. }
  destruct (carries_function H' T id _ (lit "operator--") C W1) as [Y Y']. rewrite X in Y, Y'.
  replace (b + 6) with (b + 5 + 1) by lia; replace (b + 8) with (b + 5 + 3) by lia.
  destruct o as [[] [] [] []]; cbn -[lit Nat.add] in Y, Y' |- *;
    first [apply Y'; reflexivity | apply Y; discriminate].
Qed.
Print Assumptions c58_decrement_found.

Definition point_ops (n : str) : option op_member :=
  if str_eqb n (lit "operator+") then Some (Arg 10 Copy false, [Arg 10 LValue true; Arg 10 LValue true], 200)
  else if str_eqb n (lit "operator==") then Some (Arg 2 Copy false, [Arg 10 LValue true; Arg 10 LValue true], 201) else None.
Lemma point_ops_valid : ops_valid plumbHeap point_ops.
Proof.
  intros n ret args code E. unfold point_ops in E.
  destruct (str_eqb n (lit "operator+")); [|destruct (str_eqb n (lit "operator==")); [|discriminate]];
  injection E as <- <- <-; repeat constructor; unfold arg_valid, valid; cbn; lia.
Qed.
Example c58_ex : ops_valid plumbHeap point_ops /\ point_ops (lit "operator*") = None /\ ~ is_operator (lit "Widget") /\
  exists H', register plumbHeap 10 (plumbing (lit "Widget") 10 some_caps 50 ++ operators 10 2 point_ops (IncDec true false true false) 55) = Ok H' /\
    function H' 10 (lit "operator+") = Ok [Fn (lit "operator+") (Arg 10 Copy false) [Arg 10 LValue true; Arg 10 LValue true] 200] /\
    hasFunction H' 10 (lit "operator--") = Ok false.
Proof.
  split; [apply point_ops_valid|]. split; [reflexivity|]. split; [intros (s & E); discriminate|].
  eexists. split; [vm_compute; reflexivity|]. split; vm_compute; reflexivity.
Qed.
Example c58_dereference_ex :
  register plumbHeap 10 (plumbing (lit "Widget") 10 some_caps 50 ++
    operators 10 2 (fun n => if str_eqb n (lit "operator*") then Some (Arg 2 LValue false, [Arg 10 LValue false], 202) else None)
      (IncDec false false false false) 55) = Abort.
Proof. vm_compute. reflexivity. Qed.

(* a class whose only operator* is found twice: the whole registration fails *)
Theorem c58_dereference_refuted : forall H T I id k ops o b ret args code, wf_heap H -> fresh H T id -> ~ is_operator id ->
  valid H I -> ops_valid H ops -> ops (lit "operator*") = Some (ret, args, code) ->
  register H T (plumbing id T k b ++ operators T I ops o (b + 5)) = Abort.
Proof. exact double_star. Qed.
Print Assumptions c58_dereference_refuted.
