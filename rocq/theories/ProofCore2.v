(* ProofCore2.v - restatements used by PropCore.v *)
From Coq Require String.
Import String.StringSyntax.
From Coq Require Import Permutation Sorting.Sorted Relations.
From Verif Require Import Base ModelCore ModelTraits SpecCore ProofCore ProofMatch ProofTraits ExCore.

Lemma no_conv_false H a t : wf_heap H -> valid H a -> valid H t -> ~ has_user_conversion H a t ->
  hasConverter H a t = Ok false.
Proof.
  intros W Va Vt N. destruct (hasConverter_total H a t W Va Vt) as [[|] E]; auto.
  apply hasConverter_spec in E; auto. contradiction.
Qed.

Lemma c01_iff H a b : wf_heap H -> valid H a -> valid H b ->
  (Subtype H a b /\ isChildOf H a b = Ok true /\ isParentOf H b a = Ok true)
  \/ (~ Subtype H a b /\ isChildOf H a b = Ok false /\ isParentOf H b a = Ok false).
Proof.
  intros W Va Vb. unfold isParentOf.
  destruct (isChildOf_total H a b W Va Vb) as [[|] E].
  - left. rewrite E. split; auto. apply isChildOf_spec; auto.
  - right. rewrite E. split; auto. apply isChildOf_spec_false; auto.
Qed.

Lemma c01_order H : wf_heap H -> pointers_not_inherited H ->
  (forall a, isChildOf H a a = Ok true) /\
  (forall a b c, valid H a -> valid H b -> valid H c ->
     isChildOf H a b = Ok true -> isChildOf H b c = Ok true -> isChildOf H a c = Ok true) /\
  (pointers_unique H -> forall a b, valid H a -> valid H b ->
     isChildOf H a b = Ok true -> isChildOf H b a = Ok true -> a = b).
Proof.
  intros W NI. repeat split.
  - intro a. unfold isChildOf, fuel_of. cbn. now rewrite Nat.eqb_refl.
  - intros a b c Va Vb Vc. rewrite !isChildOf_spec by auto. now apply subtype_trans.
  - intros U a b Va Vb. rewrite !isChildOf_spec by auto. apply subtype_antisym; auto.
Qed.

Lemma c02_const H a t m : wf_heap H -> arg_valid H a -> arg_valid H t ->
  isConvertibleTo H a t = Ok m -> m <> MNone ->
  a_type a <> h_value H -> a_type t <> h_value H -> ~ has_user_conversion H (a_type a) (a_type t) ->
  a_const a = true -> a_ref t = LValue \/ a_ref t = RValue -> a_const t = true.
Proof.
  intros W Va Vt E Hm N1 N2 Nc Ca Hr. eapply const_safe; eauto.
  - apply no_conv_false; auto.
  - destruct Hr; congruence.
Qed.

Lemma c03_categories H a t m : wf_heap H -> arg_valid H a -> arg_valid H t ->
  isConvertibleTo H a t = Ok m -> m <> MNone ->
  a_type a <> h_value H -> a_type t <> h_value H -> ~ has_user_conversion H (a_type a) (a_type t) ->
  (a_ref t = LValue -> a_const t = false -> a_ref a = LValue /\ a_const a = false) /\
  (a_ref t = RValue -> a_ref a = RValue) /\
  Subtype H (a_type a) (a_type t).
Proof.
  intros W Va Vt E Hm N1 N2 Nc. pose proof (no_conv_false H _ _ W Va Vt Nc) as C. repeat split.
  - eapply lref_safe; eauto.
  - eapply lref_safe; eauto.
  - eapply rref_safe; eauto.
  - eapply binding_subtype; eauto.
Qed.

Lemma c05_combine_laws :
  (forall a b c, combine a (combine b c) = combine (combine a b) c) /\
  (forall a b, combine a b = combine b a) /\
  (forall a, combine a a = a) /\ (forall a, combine MExact a = a) /\ (forall a, combine MNone a = MNone).
Proof. repeat split; intros; repeat match goal with g : grade |- _ => destruct g end; reflexivity. Qed.

Lemma c06_resolution H os ret args : wf_heap H -> Forall (fn_valid H) os -> arg_valid H ret ->
  Forall (arg_valid H) args ->
  exists gs, Forall2 (fun f g => test_sig H f ret args = Ok g) os gs /\
  exists r, overloads_resolve H os ret args = Ok r /\
    resolution_spec (List.combine os gs) r /\
    forall r', resolution_spec (List.combine os gs) r' -> r' = r.
Proof.
  intros W Fo Vr Va. destruct (test_sig_grades_total H os ret args W Fo Vr Va) as [gs F].
  exists gs. split; auto. destruct (resolve_sound H os ret args gs F) as (r & E & S).
  exists r. repeat split; auto. intros r' S'. eapply resolution_spec_fun; eauto.
Qed.

Lemma c07_rejected H os f o : wf_heap H -> Forall (fn_valid H) os -> fn_valid H f ->
  In o os -> test_fn H f o = Ok MExact -> overloads_add H os f = Abort.
Proof.
  intros W Fo [Vr Va] Hin E. unfold overloads_add. rewrite (add_check_abort H f os o); auto.
  intros x Hx. rewrite Forall_forall in Fo. destruct (Fo x Hx) as [Vxr Vxa].
  unfold test_fn. destruct (testReturn_total H (f_ret x) (f_ret f) W Vxr Vr) as [r Er]. rewrite Er. cbn [bind].
  destruct (testArguments_total H (f_args x) (f_args f) W Vxa Va) as [g Eg]. rewrite Eg. cbn [bind]. eauto.
Qed.

(* conversely: accepted when it is an exact match for none *)
Lemma c07_accepted H os f : (forall o, In o os -> exists m, test_fn H f o = Ok m /\ m <> MExact) ->
  overloads_add H os f = Ok (os ++ [f]).
Proof.
  intro A. unfold overloads_add. assert (E : add_check H f os = Ok tt); [|now rewrite E].
  induction os as [|o os IH]; cbn; auto.
  destruct (A o (or_introl eq_refl)) as (m & Em & Nm). rewrite Em. cbn [bind].
  destruct (grade_eqb m MExact) eqn:Eg; [apply grade_eqb_eq in Eg; congruence|]. cbn [negb].
  apply IH. intros x Hx. apply A. now right.
Qed.

(* C08 witnesses *)
Definition w_byval := Fn (lit "f") (Arg 2 Copy false) [Arg 2 Copy false] 10.
Definition w_byconst := Fn (lit "f") (Arg 2 Copy false) [Arg 2 Copy true] 11.
Definition w_byrref := Fn (lit "f") (Arg 2 Copy false) [Arg 2 RValue false] 12.
Definition w_byclref := Fn (lit "f") (Arg 2 Copy false) [Arg 2 LValue true] 13.
Definition w_rv := Arg 2 RValue false.
Definition w_int := Arg 2 Copy false.

Lemma built2 H f g : overloads_add H [f] g = Ok [f; g] -> BuiltIn H [f; g].
Proof.
  intro E. eapply BuiltIn_add; [|exact E].
  eapply (BuiltIn_add H [] f); [apply BuiltIn_nil|reflexivity].
Qed.

Lemma c08_refuted : exists H f g ret args,
  wf_heap H /\ BuiltIn H [f; g] /\ BuiltIn H [g; f] /\ f <> g /\
  overloads_resolve H [f; g] ret args = Ok (Chosen f) /\
  overloads_resolve H [g; f] ret args = Ok (Chosen g).
Proof.
  exists exHeap, w_byval, w_byconst, w_int, [w_rv]. split; [apply exHeap_wf|].
  repeat split; try reflexivity; try discriminate.
  - apply built2; reflexivity.
  - apply built2; reflexivity.
Qed.

Lemma c08_registration_refuted : exists H f g,
  wf_heap H /\ overloads_add H [f] g = Abort /\ overloads_add H [g] f = Ok [g; f].
Proof.
  exists exHeap, w_byrref, w_byval. split; [apply exHeap_wf|]. split; reflexivity.
Qed.

Lemma c09_differ : exists H os ret args f g,
  wf_heap H /\ BuiltIn H os /\ overloads_get H os ret args = Ok f /\
  overloads_resolve H os ret args = Ok (Chosen g) /\ f <> g.
Proof.
  exists exHeap, [w_byclref; w_byval], w_int, [w_rv], w_byclref, w_byval.
  split; [apply exHeap_wf|]. repeat split; try reflexivity; try discriminate.
  apply built2; reflexivity.
Qed.

(* call may fail although test is true (ambiguity) *)
Lemma c09_ambiguous : exists H os ret args,
  wf_heap H /\ BuiltIn H os /\ overloads_test H os ret args = Ok true /\
  overloads_resolve H os ret args = Ok Ambiguous.
Proof.
  exists exHeap, [w_byval; w_byconst], w_int, [Arg 2 LValue false].
  split; [apply exHeap_wf|]. repeat split; try reflexivity.
  apply built2; reflexivity.
Qed.

Lemma c09_agree H os ret args : wf_heap H -> Forall (fn_valid H) os -> arg_valid H ret -> Forall (arg_valid H) args ->
  ((overloads_test H os ret args = Ok true /\ exists f, overloads_get H os ret args = Ok f)
   \/ (overloads_test H os ret args = Ok false /\ overloads_get H os ret args = Abort)) /\
  (forall f, overloads_resolve H os ret args = Ok (Chosen f) -> overloads_test H os ret args = Ok true) /\
  (forall f, overloads_get H os ret args = Ok f ->
     exists os1 os2 g, os = os1 ++ f :: os2 /\ test_sig H f ret args = Ok g /\ g <> MNone /\
       Forall (fun h => test_sig H h ret args = Ok MNone) os1) /\
  (forall os1 f os2 g, os = os1 ++ f :: os2 -> test_sig H f ret args = Ok g -> g <> MNone ->
     Forall (fun h => test_sig H h ret args = Ok MNone) (os1 ++ os2) ->
     overloads_get H os ret args = Ok f /\ overloads_resolve H os ret args = Ok (Chosen f)).
Proof.
  intros W Fo Vr Va. destruct (test_sig_grades_total H os ret args W Fo Vr Va) as [gs F].
  repeat split.
  - destruct (overloads_test_get H os ret args gs F) as [(T & f & G & _)|(T & G & _)]; eauto.
  - intros f. eapply call_implies_test; eauto.
  - intros f E. eapply overloads_get_first; eauto.
  - eapply get_call_agree; eauto.
  - eapply get_call_agree; eauto.
Qed.

Lemma c11_functions H a n : wf_heap H -> valid H a ->
  (hasFunction H a n = Ok true /\ (exists c, ancestor H a c /\ declares_fn H c n) /\
     exists os, function H a n = Ok os /\ Nearest H t_fns n a os)
  \/ (hasFunction H a n = Ok false /\ ~ (exists c, ancestor H a c /\ declares_fn H c n) /\ function H a n = Abort).
Proof.
  intros W V. pose proof (hasFunction_spec H a n W V) as S.
  destruct (function_f_spec H W (fuel_of H) a n (wf_dbound H a W V) V) as [(x & E & N & T)|(E & T)].
  - left. split; [exact T|]. split; [apply S; exact T|eauto].
  - right. split; [exact T|]. split; [|exact E]. intro C. apply S in C.
    unfold hasFunction in C. congruence.
Qed.

Lemma c11_fields H a n : wf_heap H -> valid H a ->
  (hasField H a n = Ok true /\ (exists c, ancestor H a c /\ declares_field H c n) /\
     exists f, field_ H a n = Ok f /\ Nearest H t_fields n a f)
  \/ (hasField H a n = Ok false /\ ~ (exists c, ancestor H a c /\ declares_field H c n) /\ field_ H a n = Abort).
Proof.
  intros W V. pose proof (hasField_spec H a n W V) as S.
  destruct (field_f_spec H W (fuel_of H) a n (wf_dbound H a W V) V) as [(x & E & N & T)|(E & T)].
  - left. split; [exact T|]. split; [apply S; exact T|eauto].
  - right. split; [exact T|]. split; [|exact E]. intro C. apply S in C.
    unfold hasField in C. congruence.
Qed.

Lemma c13_move_only : exists H T t, wf_heap H /\ tget H T = Some t /\
  function H T (t_id t) = Ok [Fn (t_id t) (Arg T Copy false) [Arg T RValue false] 8] /\
  isMovable H T = Ok true /\ isCopiable H T = Ok false.
Proof.
  exists exHeap, 8, (nth 8 exTypes (newType [])). split; [apply exHeap_wf|]. repeat split; reflexivity.
Qed.

(* constructor overload sets *)
Lemma overloads_test_In H os ret args f g :
  (forall h, In h os -> exists m, test_sig H h ret args = Ok m) ->
  In f os -> test_sig H f ret args = Ok g -> g <> MNone -> overloads_test H os ret args = Ok true.
Proof.
  induction os as [|h os IH]; cbn; intros T Hin E Hg; [destruct Hin|].
  destruct (T h (or_introl eq_refl)) as [m Em]. rewrite Em. cbn [bind].
  destruct (grade_eqb m MNone) eqn:En; cbn [negb]; auto.
  destruct Hin as [->|Hin]; [|eauto].
  rewrite E in Em. injection Em as ->. apply grade_eqb_eq in En. congruence.
Qed.

(* T(T const&) makes T copiable, T(T&&) makes it movable *)
Lemma c13_ctor H T t fns code r : wf_heap H -> tget H T = Some t ->
  T <> h_void H -> T <> h_value H -> ~ has_user_conversion H T T ->
  function H T (t_id t) = Ok fns -> Forall (fn_valid H) fns ->
  In (Fn (t_id t) (Arg T Copy false) [Arg T r (match r with LValue => true | _ => false end)] code) fns ->
  match r with
  | LValue | Copy => isCopiable H T = Ok true /\ isMovable H T = Ok true
  | RValue => isMovable H T = Ok true
  end.
Proof.
  intros W Et Nv Nl Nc Ef Fo Hin.
  assert (V : valid H T) by (eapply tget_valid; eauto).
  assert (Hh : hasFunction H T (t_id t) = Ok true).
  { destruct (c11_functions H T (t_id t) W V) as [(E & _)|(_ & _ & E)]; auto. rewrite Ef in E. discriminate. }
  assert (Tot : forall a, arg_valid H a -> forall h, In h fns -> exists m, test_sig H h (Arg T Copy false) [a] = Ok m).
  { intros a Va h Hh'. rewrite Forall_forall in Fo. apply test_sig_total; auto. }
  assert (NC : hasConverter H T T = Ok false) by (apply no_conv_false; auto).
  assert (Sub : isParentOf H T T = Ok true).
  { unfold isParentOf, isChildOf, fuel_of. cbn. now rewrite Nat.eqb_refl. }
  assert (Go : forall a, arg_valid H a ->
     (exists g, isConvertibleTo H a (Arg T r (match r with LValue => true | _ => false end)) = Ok g /\ g <> MNone) ->
     overloads_test H fns (Arg T Copy false) [a] = Ok true).
  { intros a Va (g & Eg & Hg). apply (overloads_test_In H fns _ _ _ g (Tot a Va) Hin).
    - unfold test_sig. cbn [f_ret f_args]. rewrite testReturn_refl. cbn [bind].
      unfold testArguments. cbn [length Nat.eqb negb testArguments_loop]. rewrite Eg. cbn [bind].
      destruct g; [congruence| |]; reflexivity.
    - exact Hg. }
  assert (Mv : isMovable H T = Ok true).
  { unfold isMovable. rewrite Et, Hh. cbn [bind negb]. rewrite Ef. cbn [bind]. apply Go; [exact V|].
    unfold isConvertibleTo. cbn [a_type a_ref a_const]. rewrite xorb_nilpotent, NC, Sub.
    unfold arg_eqb. cbn [a_type a_ref a_const]. rewrite Nat.eqb_refl.
    destruct r; cbn; eexists; (split; [reflexivity|discriminate]). }
  assert (Cp : r <> RValue -> isCopiable H T = Ok true).
  { intro Nr. unfold isCopiable. rewrite Et, Hh. cbn [bind negb]. rewrite Ef. cbn [bind]. apply Go; [exact V|].
    unfold isConvertibleTo. cbn [a_type a_ref a_const]. rewrite xorb_nilpotent, NC, Sub.
    unfold arg_eqb. cbn [a_type a_ref a_const]. rewrite Nat.eqb_refl.
    destruct r; cbn; try congruence; eexists; (split; [reflexivity|discriminate]). }
  destruct r; try split; auto; apply Cp; discriminate.
Qed.

(* a type all of whose unary constructors from itself take T&& is not copiable *)
Lemma c13_not_copiable H T t fns : wf_heap H -> tget H T = Some t ->
  T <> h_void H -> T <> h_value H -> ~ has_user_conversion H T T ->
  function H T (t_id t) = Ok fns -> Forall (fn_valid H) fns ->
  (forall f x, In f fns -> f_args f = [x] -> (a_type x = T /\ a_ref x = RValue)) ->
  isCopiable H T = Ok false.
Proof.
  intros W Et Nv Nl Nc Ef Fo Hx.
  assert (V : valid H T) by (eapply tget_valid; eauto).
  assert (Hh : hasFunction H T (t_id t) = Ok true).
  { destruct (c11_functions H T (t_id t) W V) as [(E & _)|(_ & _ & E)]; auto. rewrite Ef in E. discriminate. }
  unfold isCopiable. rewrite Et, Hh. cbn [bind negb]. rewrite Ef. cbn [bind].
  pose proof (no_conv_false H T T W V V Nc) as NC. clear Ef Hh.
  induction Fo as [|f fns Vf Fo IH]; cbn; auto.
  destruct (test_sig_total H f (Arg T Copy false) [Arg T Copy false] W Vf) as [m Em]; [exact V|constructor; [exact V|constructor]|].
  rewrite Em. cbn [bind]. assert (m = MNone) as ->; [|apply IH; intros; eapply Hx; eauto; now right].
  unfold test_sig in Em. apply bind_Ok in Em as (r & Er & Em). apply bind_Ok in Em as (g & Eg & Em).
  injection Em as <-. assert (g = MNone) as ->; [|destruct r; reflexivity].
  unfold testArguments in Eg. cbn [length] in Eg.
  destruct (f_args f) as [|x [|y l]] eqn:Ea; cbn [length Nat.eqb negb] in Eg; try (injection Eg as <-; reflexivity).
  destruct (Hx f x (or_introl eq_refl) Ea) as [E1 E2].
  cbn [testArguments_loop] in Eg. unfold isConvertibleTo in Eg. destruct x as [xt xr xc]; cbn in E1, E2; subst.
  cbn [a_type a_ref a_const] in Eg. rewrite NC in Eg.
  unfold arg_eqb in Eg. cbn [a_type a_ref a_const ref_eqb] in Eg. rewrite xorb_nilpotent, andb_false_r in Eg.
  destruct xc; cbn in Eg; injection Eg as <-; reflexivity.
Qed.

Lemma c12_functions H a : wf_heap H -> valid H a ->
  exists l, functions H a = Ok l /\ strictly_sorted l /\
    (forall n, In n l <-> hasFunction H a n = Ok true) /\
    forall n, In n l <-> exists c, ancestor H a c /\ declares_fn H c n.
Proof.
  intros W V. destruct (functions_spec H a W V) as (l & E & S & A). exists l. repeat split; auto; try apply A.
  - intro Hin. apply hasFunction_spec; auto. now apply A.
  - intro Hc. apply A. apply hasFunction_spec; auto.
Qed.

Lemma c12_fields H a : wf_heap H -> valid H a ->
  exists l, fields H a = Ok l /\ strictly_sorted l /\
    (forall n, In n l <-> hasField H a n = Ok true) /\
    forall n, In n l <-> exists c, ancestor H a c /\ declares_field H c n.
Proof.
  intros W V. destruct (fields_spec H a W V) as (l & E & S & A). exists l. repeat split; auto; try apply A.
  - intro Hin. apply hasField_spec; auto. now apply A.
  - intro Hc. apply A. apply hasField_spec; auto.
Qed.
