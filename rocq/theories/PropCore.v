(* PropCore.v - property theorems C01-C13 and C48. Statements use the model's
   entry points (ModelCore, ModelTraits) and the specification of SpecCore. *)
From Coq Require String.
Import String.StringSyntax.
From Coq Require Import Permutation Sorting.Sorted Relations.
From Verif Require Import Base ModelCore ModelTraits SpecCore ProofCore ProofMatch ProofTraits ExCore ProofCore2.

(* ===== C01 ===== *)
Theorem c01_subtyping_is_ancestry : forall H a b, wf_heap H -> valid H a -> valid H b ->
  (Subtype H a b /\ isChildOf H a b = Ok true /\ isParentOf H b a = Ok true)
  \/ (~ Subtype H a b /\ isChildOf H a b = Ok false /\ isParentOf H b a = Ok false).
Proof. exact c01_iff. Qed.
Print Assumptions c01_subtyping_is_ancestry.

Theorem c01_partial_order : forall H, wf_heap H -> pointers_not_inherited H ->
  (forall a, isChildOf H a a = Ok true) /\
  (forall a b c, valid H a -> valid H b -> valid H c ->
     isChildOf H a b = Ok true -> isChildOf H b c = Ok true -> isChildOf H a c = Ok true) /\
  (pointers_unique H -> forall a b, valid H a -> valid H b ->
     isChildOf H a b = Ok true -> isChildOf H b a = Ok true -> a = b).
Proof. exact c01_order. Qed.
Print Assumptions c01_partial_order.

(* reflexive whatever the types *)
Theorem c01_reflexive : forall H a, isChildOf H a a = Ok true.
Proof. intros H a. unfold isChildOf, fuel_of. rewrite ?Nat.add_comm. cbn. rewrite Nat.eqb_refl. reflexivity. Qed.
Print Assumptions c01_reflexive.

(* with pointer types in the hierarchy it is neither antisymmetric nor transitive:
   5 is a class with parent Q* (type 4), and P* (type 6) has parent 5, where Q is a P *)
Definition ptrParents : heap := Heap
  [ newType (lit "void"); newType (lit "reflect::Value"); newType (lit "P");
    Type_ (lit "Q") (Some 2) [] [] None [] [];
    Type_ (lit "Q*") None [lit "pointer"] (lit "*") (Some 3) [] [];
    Type_ (lit "C") (Some 4) [] [] None [] [];
    Type_ (lit "P*") (Some 5) [lit "pointer"] (lit "*") (Some 2) [] [] ] 0 1.
Theorem c01_pointer_parents_refuted : exists H, wf_heap H /\ pointers_unique H /\
  (exists a b, valid H a /\ valid H b /\ isChildOf H a b = Ok true /\ isChildOf H b a = Ok true /\ a <> b) /\
  (exists a b c, valid H a /\ valid H b /\ valid H c /\
     isChildOf H a b = Ok true /\ isChildOf H b c = Ok true /\ isChildOf H a c = Ok false).
Proof.
  exists ptrParents. split; [apply wf_check_ok; reflexivity|]. split; [|split].
  - assert (P : forall a k p, points_to ptrParents a k p -> (a = 4 /\ p = 3) \/ (a = 6 /\ p = 2)).
    { intros a k p (t & E & Ht & _ & Ep).
      do 7 (destruct a as [|a]; [cbn in E; injection E as <-; cbn in Ep; try discriminate; injection Ep as <-; auto|]).
      unfold tget in E. cbn in E. destruct a; discriminate. }
    intros a b k p Pa Pb. apply P in Pa as [(-> & ->)|(-> & ->)]; apply P in Pb as [(-> & Q)|(-> & Q)]; auto; discriminate.
  - exists 5, 6. unfold valid. cbn [length h_types ptrParents]. repeat split; try lia; reflexivity.
  - exists 6, 5, 4. unfold valid. cbn [length h_types ptrParents]. repeat split; try lia; reflexivity.
Qed.
Print Assumptions c01_pointer_parents_refuted.

(* towards a non pointer type the relation is plain ancestry *)
Theorem c01_nonpointer_is_ancestor : forall H a b, ~ is_ptr H b -> (Subtype H a b <-> ancestor H a b).
Proof. exact subtype_ancestor. Qed.
Print Assumptions c01_nonpointer_is_ancestor.

(* without acyclicity the query does not return, whatever the fuel *)
Theorem c01_cyclic_parents_refuted : exists H a b, valid H a /\ valid H b /\
  forall n, isChildOf_f n H a b = OutOfFuel.
Proof. exists cycHeap, 2, 4. repeat split; [unfold valid; cbn; lia|unfold valid; cbn; lia|intro n; apply cyc_diverges]. Qed.
Print Assumptions c01_cyclic_parents_refuted.

Example c01_ex : wf_heap exHeap /\ pointers_not_inherited exHeap /\ pointers_unique exHeap /\
  isChildOf exHeap 9 3 = Ok true /\ isChildOf exHeap 3 9 = Ok false /\
  isChildOf exHeap 6 5 = Ok true /\ isChildOf exHeap 5 6 = Ok false /\ isChildOf exHeap 6 3 = Ok false.
Proof. split; [apply exHeap_wf|]. split; [apply exHeap_pni|]. split; [apply exHeap_unique|]. repeat split. Qed.

(* ===== C02 ===== *)
Theorem c02_const_is_never_dropped : forall H a t m, wf_heap H -> arg_valid H a -> arg_valid H t ->
  isConvertibleTo H a t = Ok m -> m <> MNone ->
  a_type a <> h_value H -> a_type t <> h_value H -> ~ has_user_conversion H (a_type a) (a_type t) ->
  a_const a = true -> a_ref t = LValue \/ a_ref t = RValue -> a_const t = true.
Proof. exact c02_const. Qed.
Print Assumptions c02_const_is_never_dropped.

Example c02_ex : isConvertibleTo exHeap (Arg 4 LValue true) (Arg 3 LValue true) = Ok MExact /\
  isConvertibleTo exHeap (Arg 4 LValue true) (Arg 3 LValue false) = Ok MNone /\
  ~ has_user_conversion exHeap 4 3.
Proof.
  repeat split. intro C. apply hasConverter_spec in C; [discriminate|apply exHeap_wf|unfold valid; cbn; lia..].
Qed.

(* ===== C03 ===== *)
Theorem c03_value_categories : forall H a t m, wf_heap H -> arg_valid H a -> arg_valid H t ->
  isConvertibleTo H a t = Ok m -> m <> MNone ->
  a_type a <> h_value H -> a_type t <> h_value H -> ~ has_user_conversion H (a_type a) (a_type t) ->
  (a_ref t = LValue -> a_const t = false -> a_ref a = LValue /\ a_const a = false) /\
  (a_ref t = RValue -> a_ref a = RValue) /\
  Subtype H (a_type a) (a_type t).
Proof. exact c03_categories. Qed.
Print Assumptions c03_value_categories.

Example c03_ex : isConvertibleTo exHeap (Arg 4 LValue false) (Arg 3 LValue false) = Ok MExact /\
  isConvertibleTo exHeap (Arg 4 RValue false) (Arg 3 LValue false) = Ok MNone /\
  isConvertibleTo exHeap (Arg 4 RValue false) (Arg 3 RValue true) = Ok MPartial /\
  isConvertibleTo exHeap (Arg 4 LValue false) (Arg 3 RValue false) = Ok MNone.
Proof. repeat split. Qed.

(* ===== C04 ===== *)
Theorem c04_decision_table : forall H a t m, wf_heap H -> arg_valid H a -> arg_valid H t ->
  (isConvertibleTo H a t = Ok m <-> Grade H a t m).
Proof. exact isConvertibleTo_iff_Grade. Qed.
Print Assumptions c04_decision_table.

(* every pair gets exactly one grade *)
Theorem c04_total : forall H a t, wf_heap H -> arg_valid H a -> arg_valid H t ->
  exists m, isConvertibleTo H a t = Ok m /\ forall m', Grade H a t m' -> m' = m.
Proof.
  exact (fun H a t W Va Vt => match isConvertibleTo_total H a t W Va Vt with
    | ex_intro _ m E => ex_intro _ m (conj E (fun m' G => Grade_fun H a t m' m G (isConvertibleTo_Grade H a t W Va Vt m E))) end).
Qed.
Print Assumptions c04_total.

Example c04_ex : isConvertibleTo exHeap (Arg 7 LValue true) (Arg 2 Copy false) = Ok MPartial /\
  isConvertibleTo exHeap (Arg 7 LValue true) (Arg 2 LValue true) = Ok MNone /\
  isConvertibleTo exHeap (Arg 1 LValue true) (Arg 2 LValue false) = Ok MExact.
Proof. repeat split. Qed.

(* ===== C05 ===== *)
Theorem c05_weakest_argument : forall H vs ts gs,
  Forall2 (fun vt g => isConvertibleTo H (fst vt) (snd vt) = Ok g) (List.combine vs ts) gs ->
  length vs = length ts ->
  exists g, testArguments H vs ts = Ok g /\ weakest gs g.
Proof. exact testArguments_weakest. Qed.
Print Assumptions c05_weakest_argument.

Theorem c05_arity : forall H vs ts, length vs <> length ts -> testArguments H vs ts = Ok MNone.
Proof. exact testArguments_arity. Qed.
Print Assumptions c05_arity.

Theorem c05_permutation : forall H vs ts vs' ts', wf_heap H -> Forall (arg_valid H) vs -> Forall (arg_valid H) ts ->
  length vs = length ts -> length vs' = length ts' ->
  Permutation (List.combine vs ts) (List.combine vs' ts') ->
  testArguments H vs ts = testArguments H vs' ts'.
Proof. exact testArguments_perm. Qed.
Print Assumptions c05_permutation.

Theorem c05_combination_laws :
  (forall a b c, combine a (combine b c) = combine (combine a b) c) /\
  (forall a b, combine a b = combine b a) /\
  (forall a, combine a a = a) /\ (forall a, combine MExact a = a) /\ (forall a, combine MNone a = MNone).
Proof. exact c05_combine_laws. Qed.
Print Assumptions c05_combination_laws.

Theorem c05_combine_is_min : forall a b, rank_of (combine a b) = Nat.min (rank_of a) (rank_of b).
Proof. exact combine_min. Qed.
Print Assumptions c05_combine_is_min.

Example c05_ex : testArguments exHeap [Arg 4 LValue false; Arg 2 RValue false] [Arg 3 LValue true; Arg 2 Copy false] = Ok MPartial
  /\ testArguments exHeap [] [] = Ok MExact.
Proof. repeat split. Qed.

(* ===== C06 ===== *)
Theorem c06_resolution_outcome : forall H os ret args, wf_heap H -> Forall (fn_valid H) os -> arg_valid H ret ->
  Forall (arg_valid H) args ->
  exists gs, Forall2 (fun f g => test_sig H f ret args = Ok g) os gs /\
  exists r, overloads_resolve H os ret args = Ok r /\
    resolution_spec (List.combine os gs) r /\
    forall r', resolution_spec (List.combine os gs) r' -> r' = r.
Proof. exact c06_resolution. Qed.
Print Assumptions c06_resolution_outcome.

Example c06_ex : Forall (fn_valid exHeap) [w_byclref; w_byval] /\
  overloads_resolve exHeap [w_byclref; w_byval] w_int [w_rv] = Ok (Chosen w_byval) /\
  overloads_resolve exHeap [w_byval; w_byconst] w_int [Arg 2 LValue false] = Ok Ambiguous /\
  overloads_resolve exHeap [w_byrref] w_int [Arg 2 LValue false] = Ok NoOverload.
Proof. split; [|repeat split]. repeat constructor; unfold arg_valid, valid; cbn; lia. Qed.

(* ===== C07 ===== *)
Theorem c07_no_interchangeable_pair : forall H os, BuiltIn H os -> forall os1 f os2 g os3,
  os = os1 ++ f :: os2 ++ g :: os3 -> exists m, test_fn H g f = Ok m /\ m <> MExact.
Proof. exact BuiltIn_pairwise. Qed.
Print Assumptions c07_no_interchangeable_pair.

(* even if the type graph changes between registrations *)
Theorem c07_signatures_distinct : forall os, Built os -> NoDup (map (fun f => (f_ret f, f_args f)) os).
Proof. exact Built_NoDup. Qed.
Print Assumptions c07_signatures_distinct.

Theorem c07_duplicate_rejected : forall H os f o, wf_heap H -> Forall (fn_valid H) os -> fn_valid H f ->
  In o os -> test_fn H f o = Ok MExact -> overloads_add H os f = Abort.
Proof. exact c07_rejected. Qed.
Print Assumptions c07_duplicate_rejected.

Theorem c07_otherwise_appended : forall H os f,
  (forall o, In o os -> exists m, test_fn H f o = Ok m /\ m <> MExact) ->
  overloads_add H os f = Ok (os ++ [f]).
Proof. exact c07_accepted. Qed.
Print Assumptions c07_otherwise_appended.

Example c07_ex : BuiltIn exHeap [w_byval; w_byconst] /\ overloads_add exHeap [w_byval; w_byconst] w_byval = Abort /\
  overloads_add exHeap [w_byval] w_byrref = Ok [w_byval; w_byrref].
Proof. repeat split. apply built2. reflexivity. Qed.

(* ===== C08 ===== *)
Theorem c08_order_independent_single_exact : forall H os os' ret args gs,
  Permutation os os' ->
  Forall2 (fun f g => test_sig H f ret args = Ok g) os gs ->
  exact_count (List.combine os gs) <= 1 ->
  overloads_resolve H os ret args = overloads_resolve H os' ret args.
Proof. exact resolve_perm. Qed.
Print Assumptions c08_order_independent_single_exact.

Theorem c08_success_order_independent : forall H os os' ret args gs f,
  Permutation os os' ->
  Forall2 (fun f g => test_sig H f ret args = Ok g) os gs ->
  overloads_resolve H os ret args = Ok (Chosen f) ->
  exists f', overloads_resolve H os' ret args = Ok (Chosen f').
Proof. exact resolve_perm_success. Qed.
Print Assumptions c08_success_order_independent.

(* so is failure, and its kind *)
Theorem c08_failure_order_independent : forall H os os' ret args gs r,
  Permutation os os' ->
  Forall2 (fun f g => test_sig H f ret args = Ok g) os gs ->
  r = NoOverload \/ r = Ambiguous ->
  overloads_resolve H os ret args = Ok r -> overloads_resolve H os' ret args = Ok r.
Proof.
  intros H os os' ret args gs r P F Hr E.
  rewrite <- (resolve_perm H os os' ret args gs P F); auto.
  apply (resolve_iff _ _ _ _ _ _ F) in E. unfold exact_count.
  rewrite no_exact_filter; [cbn; lia|]. destruct Hr as [->| ->]; cbn in E; [|exact (proj1 E)].
  intros f g Hi. rewrite (E f g Hi). discriminate.
Qed.
Print Assumptions c08_failure_order_independent.

(* when several overloads match exactly, the first registered one is chosen *)
Theorem c08_first_exact_wins : forall H os1 f os2 ret args, wf_heap H -> Forall (fn_valid H) (os1 ++ f :: os2) ->
  arg_valid H ret -> Forall (arg_valid H) args ->
  test_sig H f ret args = Ok MExact -> (forall h, In h os1 -> test_sig H h ret args <> Ok MExact) ->
  overloads_resolve H (os1 ++ f :: os2) ret args = Ok (Chosen f).
Proof.
  intros H os1 f os2 ret args W V Vr Va Tf N.
  apply Forall_app in V as [V1 V2]. inversion V2 as [|? ? Vf V2']; subst.
  destruct (test_sig_grades_total H os1 ret args W V1 Vr Va) as [g1 G1].
  destruct (test_sig_grades_total H os2 ret args W V2' Vr Va) as [g2 G2].
  apply (resolve_iff _ _ _ _ (g1 ++ MExact :: g2)); [apply Forall2_app; auto|].
  left. exists (List.combine os1 g1), (List.combine os2 g2). split.
  - assert (L1 : length os1 = length g1) by (eapply Forall2_len; eauto). clear - L1. revert g1 L1.
    induction os1 as [|o os1 IH]; intros [|x g1] L; cbn in *; try discriminate; auto. f_equal. apply IH. lia.
  - intros h g Hi ->. destruct (In_combine_graded H ret args os1 g1 h G1 _ Hi) as [Hh Th]. exact (N h Hh Th).
Qed.
Print Assumptions c08_first_exact_wins.

(* overloads no two of which are interchangeable in either direction can be
   registered in every order *)
Theorem c08_registration_any_order : forall H os os',
  NoDup os -> (forall f g, In f os -> In g os -> f <> g -> exists m, test_fn H f g = Ok m /\ m <> MExact) ->
  Permutation os os' -> BuiltIn H os'.
Proof.
  intros H os os' Nd Hd P.
  assert (Nd' : NoDup os') by (eapply Permutation_NoDup; eauto).
  assert (Hd' : forall f g, In f os' -> In g os' -> f <> g -> exists m, test_fn H f g = Ok m /\ m <> MExact).
  { intros f g Hf Hg. apply Hd; eapply Permutation_in; try apply Permutation_sym; eauto. }
  clear os Nd Hd P. induction os' as [|f os IH] using rev_ind; [constructor|].
  apply NoDup_remove in Nd' as [Nd' Nf]. rewrite app_nil_r in *.
  eapply BuiltIn_add; [apply IH; auto|].
  - intros x y Hx Hy. apply Hd'; apply in_or_app; now left.
  - apply c07_accepted. intros o Ho. apply Hd'; [apply in_or_app; right; now left|apply in_or_app; now left|].
    intros ->. contradiction.
Qed.
Print Assumptions c08_registration_any_order.

(* the choice does depend on the order when two overloads match exactly *)
Theorem c08_order_independent_refuted : exists H f g ret args,
  wf_heap H /\ BuiltIn H [f; g] /\ BuiltIn H [g; f] /\ f <> g /\
  overloads_resolve H [f; g] ret args = Ok (Chosen f) /\
  overloads_resolve H [g; f] ret args = Ok (Chosen g).
Proof. exact c08_refuted. Qed.
Print Assumptions c08_order_independent_refuted.

(* and so does the success of registration *)
Theorem c08_registration_order_refuted : exists H f g,
  wf_heap H /\ overloads_add H [f] g = Abort /\ overloads_add H [g] f = Ok [g; f].
Proof. exact c08_registration_refuted. Qed.
Print Assumptions c08_registration_order_refuted.

Example c08_ex : overloads_resolve exHeap [w_byclref; w_byval] w_int [w_rv] = overloads_resolve exHeap [w_byval; w_byclref] w_int [w_rv] /\
  exact_count (List.combine [w_byclref; w_byval] [MPartial; MExact]) <= 1 /\
  Forall2 (fun f g => test_sig exHeap f w_int [w_rv] = Ok g) [w_byclref; w_byval] [MPartial; MExact] /\
  test_fn exHeap w_byclref w_byval = Ok MPartial /\ test_fn exHeap w_byval w_byclref = Ok MPartial.
Proof. repeat split; auto. Qed.

(* ===== C09 ===== *)
Theorem c09_test_get_call : forall H os ret args,
  wf_heap H -> Forall (fn_valid H) os -> arg_valid H ret -> Forall (arg_valid H) args ->
  ((overloads_test H os ret args = Ok true /\ exists f, overloads_get H os ret args = Ok f)
   \/ (overloads_test H os ret args = Ok false /\ overloads_get H os ret args = Abort)) /\
  (forall f, overloads_resolve H os ret args = Ok (Chosen f) -> overloads_test H os ret args = Ok true) /\
  (forall f, overloads_get H os ret args = Ok f ->
     exists os1 os2 g, os = os1 ++ f :: os2 /\ test_sig H f ret args = Ok g /\ g <> MNone /\
       Forall (fun h => test_sig H h ret args = Ok MNone) os1) /\
  (forall os1 f os2 g, os = os1 ++ f :: os2 -> test_sig H f ret args = Ok g -> g <> MNone ->
     Forall (fun h => test_sig H h ret args = Ok MNone) (os1 ++ os2) ->
     overloads_get H os ret args = Ok f /\ overloads_resolve H os ret args = Ok (Chosen f)).
Proof. exact c09_agree. Qed.
Print Assumptions c09_test_get_call.

(* test(function): some registered overload takes its parameters and result *)
Theorem c09_test_function : forall H os f, wf_heap H -> Forall (fn_valid H) os -> fn_valid H f ->
  exists b, overloads_test_fn H os f = Ok b /\
    (b = true <-> exists o m, In o os /\ test_fn H f o = Ok m /\ m <> MNone).
Proof.
  intros H os f W Fo Vf. induction Fo as [|o os Vo Fo IH]; cbn [overloads_test_fn].
  - exists false. split; [reflexivity|]. split; [discriminate|]. intros (o & m & [] & _).
  - destruct Vf as [Vr Va], Vo as [Vor Voa].
    assert (E : exists m, test_fn H f o = Ok m).
    { unfold test_fn. destruct (testReturn_total H (f_ret o) (f_ret f) W Vor Vr) as [r Er]. rewrite Er. cbn [bind].
      destruct (testArguments_total H (f_args o) (f_args f) W Voa Va) as [g Eg]. rewrite Eg. cbn [bind]. eauto. }
    destruct E as [m E]. rewrite E. cbn [bind]. destruct (grade_eqb m MNone) eqn:G; cbn [negb].
    + destruct IH as (b & Eb & Hb). exists b. split; auto. rewrite Hb. apply grade_eqb_eq in G. split.
      * intros (o' & m' & I & X). exists o', m'. split; auto. now right.
      * intros (o' & m' & [<-|I] & X & N); [congruence|]. exists o', m'. auto.
    + exists true. split; [reflexivity|]. split; auto. intros _. exists o, m. split; [now left|]. split; auto. intros ->. discriminate.
Qed.
Print Assumptions c09_test_function.

Theorem c09_get_equals_call_refuted : exists H os ret args f g,
  wf_heap H /\ BuiltIn H os /\ overloads_get H os ret args = Ok f /\
  overloads_resolve H os ret args = Ok (Chosen g) /\ f <> g.
Proof. exact c09_differ. Qed.
Print Assumptions c09_get_equals_call_refuted.

Theorem c09_test_implies_call_refuted : exists H os ret args,
  wf_heap H /\ BuiltIn H os /\ overloads_test H os ret args = Ok true /\
  overloads_resolve H os ret args = Ok Ambiguous.
Proof. exact c09_ambiguous. Qed.
Print Assumptions c09_test_implies_call_refuted.

(* ===== C10 ===== *)
Theorem c10_names_disjoint : forall id ops, members_ok (fold_left member_apply ops (newType id)).
Proof. exact members_history. Qed.
Print Assumptions c10_names_disjoint.

Theorem c10_field_kept : forall t ops n f, afind n (t_fields t) = Some f ->
  afind n (t_fields (fold_left member_apply ops t)) = Some f.
Proof. exact field_kept. Qed.
Print Assumptions c10_field_kept.

Theorem c10_function_kept : forall t ops n os, afind n (t_fns t) = Some os ->
  exists os', afind n (t_fns (fold_left member_apply ops t)) = Some (os ++ os').
Proof. exact function_kept. Qed.
Print Assumptions c10_function_kept.

Theorem c10_addField : forall t n f,
  (In n (map fst (t_fields t)) \/ In n (map fst (t_fns t)) -> addField t n f = Abort) /\
  (~ In n (map fst (t_fields t)) -> ~ In n (map fst (t_fns t)) ->
     exists t', addField t n f = Ok t' /\ t_fns t' = t_fns t /\ afind n (t_fields t') = Some f /\
       forall m, m <> n -> afind m (t_fields t') = afind m (t_fields t)).
Proof. exact addField_spec. Qed.
Print Assumptions c10_addField.

Theorem c10_addFunction : forall H t n f t', addFunction H t n f = Ok t' ->
  ~ In n (map fst (t_fields t)) /\ t_fields t' = t_fields t /\
  (exists os, afind n (t_fns t') = Some (os ++ [f]) /\
     (afind n (t_fns t) = Some os \/ (afind n (t_fns t) = None /\ os = []))) /\
  forall m, m <> n -> afind m (t_fns t') = afind m (t_fns t).
Proof. exact addFunction_spec. Qed.
Print Assumptions c10_addFunction.

Theorem c10_addFunction_over_field : forall H t n f, In n (map fst (t_fields t)) -> addFunction H t n f = Abort.
Proof. exact addFunction_field_abort. Qed.
Print Assumptions c10_addFunction_over_field.

Example c10_ex : let t := fold_left member_apply
    [OpField (lit "x") (Field (lit "x") w_int 0 []); OpFunction exHeap (lit "x") w_byval;
     OpFunction exHeap (lit "f") w_byval; OpFunction exHeap (lit "f") w_byconst;
     OpField (lit "f") (Field (lit "f") w_int 8 [])] (newType (lit "T")) in
  map fst (t_fields t) = [lit "x"] /\ afind (lit "f") (t_fns t) = Some [w_byval; w_byconst].
Proof. split; reflexivity. Qed.

(* ===== C11 ===== *)
Theorem c11_function_lookup : forall H a n, wf_heap H -> valid H a ->
  (hasFunction H a n = Ok true /\ (exists c, ancestor H a c /\ declares_fn H c n) /\
     exists os, function H a n = Ok os /\ Nearest H t_fns n a os)
  \/ (hasFunction H a n = Ok false /\ ~ (exists c, ancestor H a c /\ declares_fn H c n) /\ function H a n = Abort).
Proof. exact c11_functions. Qed.
Print Assumptions c11_function_lookup.

Theorem c11_field_lookup : forall H a n, wf_heap H -> valid H a ->
  (hasField H a n = Ok true /\ (exists c, ancestor H a c /\ declares_field H c n) /\
     exists f, field_ H a n = Ok f /\ Nearest H t_fields n a f)
  \/ (hasField H a n = Ok false /\ ~ (exists c, ancestor H a c /\ declares_field H c n) /\ field_ H a n = Abort).
Proof. exact c11_fields. Qed.
Print Assumptions c11_field_lookup.

Theorem c11_nearest_unique : forall V H (own : typerec -> list (str * V)) n a x y,
  Nearest H own n a x -> Nearest H own n a y -> x = y.
Proof. exact @Nearest_fun. Qed.
Print Assumptions c11_nearest_unique.

Example c11_ex : (exists os, function exHeap 9 (lit "foo") = Ok os /\ map f_code os = [5]) /\
  hasField exHeap 9 (lit "x") = Ok true /\ function exHeap 9 (lit "nope") = Abort.
Proof. repeat split. eexists; split; reflexivity. Qed.

(* ===== C12 ===== *)
Theorem c12_function_listing : forall H a, wf_heap H -> valid H a ->
  exists l, functions H a = Ok l /\ strictly_sorted l /\
    (forall n, In n l <-> hasFunction H a n = Ok true) /\
    forall n, In n l <-> exists c, ancestor H a c /\ declares_fn H c n.
Proof. exact c12_functions. Qed.
Print Assumptions c12_function_listing.

Theorem c12_field_listing : forall H a, wf_heap H -> valid H a ->
  exists l, fields H a = Ok l /\ strictly_sorted l /\
    (forall n, In n l <-> hasField H a n = Ok true) /\
    forall n, In n l <-> exists c, ancestor H a c /\ declares_field H c n.
Proof. exact c12_fields. Qed.
Print Assumptions c12_field_listing.

Theorem c12_order_independent : forall H K a, same_heap_upto_order H K ->
  functions H a = functions K a.
Proof. exact functions_upto. Qed.
Print Assumptions c12_order_independent.

Theorem c12_fields_order_independent : forall H K a, same_heap_upto_order H K ->
  fields H a = fields K a.
Proof. exact fields_upto. Qed.
Print Assumptions c12_fields_order_independent.

Example c12_ex : functions exHeap 9 = Ok [lit "Base"; lit "bar"; lit "foo"] /\ fields exHeap 9 = Ok [lit "x"; lit "y"].
Proof. split; reflexivity. Qed.

(* ===== C13 ===== *)
Theorem c13_copiable_implies_movable : forall H T, wf_heap H -> valid H T ->
  (forall t fns, tget H T = Some t -> function H T (t_id t) = Ok fns -> Forall (fn_valid H) fns) ->
  isCopiable H T = Ok true -> isMovable H T = Ok true.
Proof. exact copiable_movable. Qed.
Print Assumptions c13_copiable_implies_movable.

Theorem c13_constructors : forall H T t fns code r, wf_heap H -> tget H T = Some t ->
  T <> h_void H -> T <> h_value H -> ~ has_user_conversion H T T ->
  function H T (t_id t) = Ok fns -> Forall (fn_valid H) fns ->
  In (Fn (t_id t) (Arg T Copy false) [Arg T r (match r with LValue => true | _ => false end)] code) fns ->
  match r with
  | LValue | Copy => isCopiable H T = Ok true /\ isMovable H T = Ok true
  | RValue => isMovable H T = Ok true
  end.
Proof. exact c13_ctor. Qed.
Print Assumptions c13_constructors.

(* no unary constructor takes a T other than by T&&; constructors from other types do
   not count *)
Theorem c13_move_only_not_copiable : forall H T t fns, wf_heap H -> tget H T = Some t -> T <> h_value H ->
  function H T (t_id t) = Ok fns -> Forall (fn_valid H) fns ->
  (forall f x, In f fns -> f_args f = [x] ->
     a_type x <> h_value H /\ ~ has_user_conversion H T (a_type x) /\ (a_ref x = RValue \/ ~ Subtype H T (a_type x))) ->
  isCopiable H T = Ok false.
Proof.
  intros H T t fns W Et Nl Ef Fo Hx.
  assert (V : valid H T) by (eapply tget_valid; eauto).
  assert (Hh : hasFunction H T (t_id t) = Ok true).
  { destruct (c11_functions H T (t_id t) W V) as [(E & _)|(_ & _ & E)]; auto. rewrite Ef in E. discriminate. }
  unfold isCopiable. rewrite Et, Hh. cbn [bind negb]. rewrite Ef. cbn [bind]. clear Ef Hh.
  induction Fo as [|f fns Vf Fo IH]; cbn; auto.
  destruct (test_sig_total H f (Arg T Copy false) [Arg T Copy false] W Vf) as [m Em]; [exact V|constructor; [exact V|constructor]|].
  rewrite Em. cbn [bind]. assert (m = MNone) as ->; [|apply IH; intros; eapply Hx; eauto; now right].
  unfold test_sig in Em. apply bind_Ok in Em as (r & Er & Em). apply bind_Ok in Em as (g & Eg & Em).
  injection Em as <-. assert (g = MNone) as ->; [|destruct r; reflexivity].
  unfold testArguments in Eg. cbn [length] in Eg.
  destruct (f_args f) as [|x [|y l]] eqn:Ea; cbn [length Nat.eqb negb] in Eg; try (injection Eg as <-; reflexivity).
  destruct (Hx f x (or_introl eq_refl) Ea) as (E1 & E2 & E3).
  assert (Vx : arg_valid H x). { destruct Vf as (_ & Va). rewrite Ea in Va. now inversion Va. }
  destruct (c04_total H (Arg T Copy false) x W V Vx) as (g' & Eg' & _).
  assert (g' = MNone).
  { destruct (grade_eqb g' MNone) eqn:Q; [now apply grade_eqb_eq|]. exfalso.
    destruct (c03_value_categories H (Arg T Copy false) x g' W V Vx Eg') as (_ & C2 & C3); auto.
    { intros ->. discriminate. }
    destruct E3 as [E3|E3]; [|contradiction]. specialize (C2 E3). discriminate. }
  subst g'. cbn [testArguments_loop] in Eg. rewrite Eg' in Eg. cbn in Eg. congruence.
Qed.
Print Assumptions c13_move_only_not_copiable.

Example c13_ex : exists H T t, wf_heap H /\ tget H T = Some t /\
  function H T (t_id t) = Ok [Fn (t_id t) (Arg T Copy false) [Arg T RValue false] 8] /\
  isMovable H T = Ok true /\ isCopiable H T = Ok false.
Proof. exact c13_move_only. Qed.

(* ===== C48 ===== *)
Theorem c48_add_trait : forall V (T : traits V) n v,
  (In n (map fst T) -> Traits_addTrait T n v = Abort) /\
  (~ In n (map fst T) -> exists T', Traits_addTrait T n v = Ok T' /\
     Traits_getValue T' n = Ok v /\
     forall m, m <> n -> Traits_getValue T' m = Traits_getValue T m /\ Traits_is T' m = Traits_is T m).
Proof. exact @addTrait_spec. Qed.
Print Assumptions c48_add_trait.

Theorem c48_write_once : forall V (T : traits V) ops n v, Traits_getValue T n = Ok v ->
  Traits_getValue (fold_left Traits_apply ops T) n = Ok v.
Proof. exact @traits_apply_keep. Qed.
Print Assumptions c48_write_once.

Theorem c48_first_value_wins : forall V ops1 n (v : V) ops2, ~ In n (map fst ops1) ->
  Traits_getValue (fold_left Traits_apply (ops1 ++ (n, v) :: ops2) []) n = Ok v.
Proof. exact @traits_first_wins. Qed.
Print Assumptions c48_first_value_wins.

Theorem c48_is : forall V (ops : list (str * V)) n,
  Traits_is (fold_left Traits_apply ops []) n = true <-> In n (map fst ops).
Proof. exact @traits_is_history. Qed.
Print Assumptions c48_is.

(* the value of a trait that was never added is an error, reported *)
Theorem c48_get_value : forall V (ops : list (str * V)) n,
  (~ In n (map fst ops) -> Traits_getValue (fold_left Traits_apply ops []) n = Abort) /\
  (In n (map fst ops) -> exists v, In (n, v) ops /\ Traits_getValue (fold_left Traits_apply ops []) n = Ok v).
Proof.
  intros V ops n. pose proof (c48_is V ops n) as K. unfold Traits_is in K. split.
  - intro N1. unfold Traits_getValue. destruct (afind n (fold_left Traits_apply ops [])) as [v|] eqn:E; auto. exfalso. apply N1, K.
    unfold ahas. now rewrite E.
  - intro I1. assert (G : exists ops1 v ops2, ops = ops1 ++ (n, v) :: ops2 /\ ~ In n (map fst ops1)).
    { clear K. induction ops as [|[k v] ops IH]; [destruct I1|]. destruct (str_eqb k n) eqn:E.
      - apply str_eqb_eq in E as ->. exists [], v, ops. split; auto.
      - apply str_eqb_neq in E. destruct I1 as [I1|I1]; [contradiction|]. destruct (IH I1) as (o1 & w & o2 & -> & N1).
        exists ((k, v) :: o1), w, o2. split; auto. intros [Q|Q]; auto. }
    destruct G as (o1 & v & o2 & -> & N1). exists v. split; [apply in_app_iff; right; now left|]. now apply c48_first_value_wins.
Qed.
Print Assumptions c48_get_value.

Theorem c48_names_once : forall V (ops : list (str * V)), NoDup (Traits_traits (fold_left Traits_apply ops [])).
Proof. exact @traits_NoDup. Qed.
Print Assumptions c48_names_once.

Theorem c48_pointer_once : forall t k p t', setPointer t k p = Ok t' ->
  isPointer t = false /\ isPointer t' = true /\ t_pointer t' = k /\ t_pointee t' = p /\
  forall k' p', setPointer t' k' p' = Abort.
Proof. exact setPointer_once. Qed.
Print Assumptions c48_pointer_once.

Example c48_ex : Traits_getValue (fold_left Traits_apply [(lit "a", 1); (lit "b", 2); (lit "a", 3)] []) (lit "a") = Ok 1
  /\ exists t', setPointer (newType (lit "T")) (lit "*") (Some 3) = Ok t' /\ isPointer t' = true.
Proof. split; [reflexivity|eexists; split; reflexivity]. Qed.
