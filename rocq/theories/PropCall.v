(* PropCall.v - property theorem C67: calling by name.  Composes name lookup
   (C11), overload resolution (C04-C06) and argument and result passing (C14,
   C52) over the entry points Value::call, Type::call, Type::construct and
   Value::assign. *)
From Coq Require String.
Import String.StringSyntax.
From Coq Require Import Relations.
From Verif Require Import Base ModelCore SpecCore ProofCore ProofMatch ExCore ProofCore2 ModelValue SpecValue ProofValue
  PropCore PropValue ModelCall SpecCall.

(* ---- the declarative fit is what the signature test computes ---- *)
Lemma testReturn_accepted H asked fr : wf_heap H -> arg_valid H asked -> arg_valid H fr ->
  (return_accepted H asked fr /\ testReturn H asked fr = Ok MExact) \/
  (~ return_accepted H asked fr /\ testReturn H asked fr = Ok MNone).
Proof.
  intros W Va Vf. unfold testReturn, return_accepted.
  destruct (Nat.eqb_spec (a_type asked) (h_void H)) as [E1|N1]; [left; auto|].
  destruct (Nat.eqb_spec (a_type fr) (h_void H)) as [E2|N2].
  - destruct (Nat.eqb_spec (a_type asked) (h_value H)) as [E3|N3]; cbn [negb].
    + destruct (a_ref asked) eqn:Er; cbn [ref_eqb]; [left|right|left]; split; auto.
      * right; left. repeat split; auto. discriminate.
      * intros [X|[(_ & _ & _ & X)|(_ & X & _)]]; auto.
      * right; left. repeat split; auto. discriminate.
    + right. split; [|reflexivity]. intros [X|[(_ & _ & X & _)|(_ & X & _)]]; auto.
  - destruct (isConvertibleTo_total H fr asked W Vf Va) as [m Em]. rewrite Em. cbn [bind].
    pose proof (isConvertibleTo_Grade H fr asked W Vf Va m Em) as G.
    assert (NN : m = MNone -> ~ (exists g, Grade H fr asked g /\ g <> MNone)).
    { intros -> (g & Gg & Ng). apply Ng. exact (Grade_fun H fr asked _ _ Gg G). }
    destruct m; cbn [grade_eqb].
    + right. split; [|reflexivity]. intros [X|[(_ & X & _)|(_ & _ & X & _)]]; auto. now apply NN.
    + destruct (isTemporary fr && isConstRef asked) eqn:Et.
      * right. split; [|reflexivity]. apply andb_true_iff in Et as [T1 T2].
        unfold isTemporary in T1. unfold isConstRef in T2. apply andb_true_iff in T2 as [T2 T3].
        intros [X|[(_ & X & _)|(_ & _ & _ & X)]]; auto. apply X.
        destruct (a_ref fr), (a_ref asked); try discriminate; repeat split; auto; discriminate.
      * left. split; [|reflexivity]. right; right. repeat split; auto; [exists MPartial; split; [exact G|discriminate]|].
        intros (X1 & X2 & X3). unfold isTemporary, isConstRef in Et. rewrite X2, X3 in Et.
        destruct (a_ref fr); try discriminate. now apply X1.
    + destruct (isTemporary fr && isConstRef asked) eqn:Et.
      * right. split; [|reflexivity]. apply andb_true_iff in Et as [T1 T2].
        unfold isTemporary in T1. unfold isConstRef in T2. apply andb_true_iff in T2 as [T2 T3].
        intros [X|[(_ & X & _)|(_ & _ & _ & X)]]; auto. apply X.
        destruct (a_ref fr), (a_ref asked); try discriminate; repeat split; auto; discriminate.
      * left. split; [|reflexivity]. right; right. repeat split; auto; [exists MExact; split; [exact G|discriminate]|].
        intros (X1 & X2 & X3). unfold isTemporary, isConstRef in Et. rewrite X2, X3 in Et.
        destruct (a_ref fr); try discriminate. now apply X1.
Qed.

Lemma Grade_converts H : wf_heap H -> forall vs ts gs, Forall (arg_valid H) vs -> Forall (arg_valid H) ts ->
  Forall2 (fun ap g => Grade H (fst ap) (snd ap) g) (List.combine vs ts) gs ->
  Forall2 (fun vt g => isConvertibleTo H (fst vt) (snd vt) = Ok g) (List.combine vs ts) gs.
Proof.
  intros W vs. induction vs as [|v vs IH]; intros [|t ts] gs Fv Ft F; cbn [List.combine] in *; inversion F; subst; constructor.
  - inversion Fv; inversion Ft; subst. apply isConvertibleTo_iff_Grade; auto.
  - inversion Fv; inversion Ft; subst. now apply IH.
Qed.

Lemma weakest_fun gs a b : weakest gs a -> weakest gs b -> a = b.
Proof.
  intros [A1 A2] [B1 B2]. assert (R : rank_of a = rank_of b).
  { destruct A2 as [A2|[-> ->]], B2 as [B2|[E ->]]; try (subst gs; contradiction); auto.
    - apply A1 in B2. apply B1 in A2. lia.
    - destruct B2. }
  destruct a, b; cbn in R; congruence.
Qed.

Lemma Fits_test H asked args f g : wf_heap H -> arg_valid H asked -> fn_valid H f -> Forall (arg_valid H) args ->
  Fits H asked args f g -> test_sig H f asked args = Ok g.
Proof.
  intros W Va (Vr & Vp) Vs F. unfold test_sig.
  destruct (testReturn_accepted H asked (f_ret f) W Va Vr) as [[A E]|[A E]]; rewrite E; cbn [bind];
    inversion F as [N|N|gs g' R L G Wk]; subst; try contradiction.
  - rewrite c05_arity by exact N. reflexivity.
  - destruct (c05_weakest_argument H args (f_args f) gs (Grade_converts H W _ _ _ Vs Vp G) L) as (m & Em & Wm).
    rewrite Em. cbn [bind]. rewrite (weakest_fun _ _ _ Wk Wm). destruct m; reflexivity.
  - destruct (testArguments_total H args (f_args f) W Vs Vp) as [m Em]. rewrite Em. cbn [bind]. destruct m; reflexivity.
  - rewrite c05_arity by exact N. reflexivity.
Qed.

Lemma converts_Grade H : wf_heap H -> forall vs ts gs, Forall (arg_valid H) vs -> Forall (arg_valid H) ts ->
  Forall2 (fun vt g => isConvertibleTo H (fst vt) (snd vt) = Ok g) (List.combine vs ts) gs ->
  Forall2 (fun ap g => Grade H (fst ap) (snd ap) g) (List.combine vs ts) gs.
Proof.
  intros W vs. induction vs as [|v vs IH]; intros [|t ts] gs Fv Ft F; cbn [List.combine] in *; inversion F; subst; constructor.
  - inversion Fv; inversion Ft; subst. apply isConvertibleTo_iff_Grade; auto.
  - inversion Fv; inversion Ft; subst. now apply IH.
Qed.

Lemma Fits_total H asked args f : wf_heap H -> arg_valid H asked -> fn_valid H f -> Forall (arg_valid H) args ->
  exists g, Fits H asked args f g.
Proof.
  intros W Va (Vr & Vp) Vs.
  destruct (testReturn_accepted H asked (f_ret f) W Va Vr) as [[A _]|[A _]]; [|eexists; now apply Fits_return].
  destruct (Nat.eq_dec (length args) (length (f_args f))) as [L|L]; [|eexists; now apply Fits_arity].
  destruct (conv_grades_total H args (f_args f) W Vs Vp) as [gs F].
  destruct (c05_weakest_argument H args (f_args f) gs F L) as (m & _ & Wm).
  exists m. eapply Fits_args; eauto. now apply converts_Grade.
Qed.

Lemma Fits_tests H asked args os gs : wf_heap H -> arg_valid H asked -> Forall (fn_valid H) os -> Forall (arg_valid H) args ->
  Forall2 (Fits H asked args) os gs -> Forall2 (fun f g => test_sig H f asked args = Ok g) os gs.
Proof.
  intros W Va Vo Vs F. induction F as [|f g os gs Fg F IH]; constructor; inversion Vo; subst.
  - now apply Fits_test.
  - now apply IH.
Qed.

(* every overload fits every call to exactly one degree *)
Theorem c67_fit : forall H asked args f, wf_heap H -> arg_valid H asked -> fn_valid H f -> Forall (arg_valid H) args ->
  exists g, Fits H asked args f g /\ (forall g', Fits H asked args f g' -> g' = g) /\ test_sig H f asked args = Ok g.
Proof.
  intros H asked args f W Va Vf Vs. destruct (Fits_total H asked args f W Va Vf Vs) as [g G].
  exists g. split; [exact G|]. pose proof (Fits_test _ _ _ _ _ W Va Vf Vs G) as T. split; [|exact T].
  intros g' G'. apply Fits_test in G'; auto. congruence.
Qed.
Print Assumptions c67_fit.

Lemma resolves H asked args os gs r : wf_heap H -> arg_valid H asked -> Forall (fn_valid H) os -> Forall (arg_valid H) args ->
  Forall2 (Fits H asked args) os gs -> resolution_spec (List.combine os gs) r -> overloads_resolve H os asked args = Ok r.
Proof.
  intros W Va Vo Vs F R. destruct (c06_resolution_outcome H os asked args W Vo Va Vs) as (gs' & F' & r' & E & _ & U).
  apply Fits_tests in F; auto.
  assert (gs' = gs) as ->.
  { clear - F F'. revert gs' F'. induction F as [|f g os gs Fg F IH]; intros gs' F'; inversion F'; subst; auto. f_equal; auto. congruence. }
  now rewrite (U r R).
Qed.

Lemma chosen_fits H asked args os gs f : Forall2 (Fits H asked args) os gs -> resolution_spec (List.combine os gs) (Chosen f) ->
  In f os /\ exists g, Fits H asked args f g /\ g <> MNone.
Proof.
  intros F R.
  assert (A : forall x g, In (x, g) (List.combine os gs) -> In x os /\ Fits H asked args x g).
  { clear R. induction F as [|y k os gs Fy F IH]; cbn; [tauto|]. intros x g [X|X]; [injection X as -> ->; auto|].
    destruct (IH x g X); auto. }
  destruct R as [(l1 & l2 & E & _)|(_ & l1 & l2 & E & _)].
  - destruct (A f MExact) as [A1 A2]; [rewrite E; apply in_or_app; right; left; reflexivity|]. split; auto. exists MExact. split; auto. discriminate.
  - destruct (A f MPartial) as [A1 A2]; [rewrite E; apply in_or_app; right; left; reflexivity|]. split; auto. exists MPartial. split; auto. discriminate.
Qed.

Lemma carried_valid H cs : Forall (fun c => arg_valid H (carg_arg c)) cs -> Forall (arg_valid H) (map carg_arg cs).
Proof. intro F. apply Forall_map. exact F. Qed.

Lemma nearest_function H T name os : wf_heap H -> valid H T -> Nearest H t_fns name T os -> function H T name = Ok os.
Proof.
  intros W V N. destruct (c11_function_lookup H T name W V) as [(_ & _ & os' & E & N')|(_ & X & _)].
  - now rewrite (c11_nearest_unique _ _ _ _ _ _ _ N N').
  - exfalso. apply X. clear X. induction N as [a t x Et Ea|a t p x Et Ni Ep N IH].
    + exists a. split; [constructor|]. exists t. split; auto. exact (afind_Some_key _ _ _ Ea).
    + assert (P : parent_of H a p) by (exists t; auto).
      destruct IH as (c & A & D); [apply (wf_links H W a p); exists t; auto|]. exists c. split; auto. econstructor; eauto.
Qed.

(* ===== C67 ===== *)
(* An object passed to a parameter taken by reference is that very object. *)
Lemma passed_self H st v p q st' : Passed H st v p q st' -> a_type p <> h_value H -> a_ref p = LValue ->
  q = PRef (v_addr v) /\ (a_const p = false -> a_const (v_arg v) = false).
Proof.
  intros P N L. inversion P as [X|X1 X2 X3|X1 X2|code q' X1 X2 X3 X4|code X1 X2 X3]; subst; try congruence.
  split; auto. intro C. now apply X3.
Qed.

Theorem c67_method_call : forall n E H st v name asked cs os gs f,
  wf_heap H -> h_value H <> h_void H -> valid H (v_type v) -> arg_valid H asked ->
  Forall (fun c => arg_valid H (carg_arg c)) cs ->
  Nearest H t_fns name (v_type v) os -> Forall (fn_valid H) os ->
  Forall2 (Fits H asked (v_arg v :: map carg_arg cs)) os gs ->
  resolution_spec (List.combine os gs) (Chosen f) ->
  Forall2 (passable E H) (CVal v :: cs) (f_args f) -> returnable E H f -> result_ok E H (f_ret f) asked ->
  exists vs st1 p ps q qs st2 r st3 oq st4,
    CarriedAll st cs vs st1 /\ f_args f = p :: ps /\
    PassedAll H st1 (v :: vs) (p :: ps) (q :: qs) st2 /\
    (a_type p <> h_value H -> a_ref p = LValue ->
       q = PRef (v_addr v) /\ (a_const p = false -> a_const (v_arg v) = false)) /\
    Returned E H f (q :: qs) st2 r st3 /\
    ((a_type asked = h_void H /\ oq = None /\ st4 = st3) \/
     (a_type asked <> h_void H /\ exists q', oq = Some q' /\ Passed H st3 r asked q' st4)) /\
    value_call_ret (S (S n)) E H st v name asked cs = Ok (oq, st4).
Proof.
  intros n E H st v name asked cs os gs f W Hv V Va Vc N Vo F R P Rt Ro.
  pose proof (nearest_function _ _ _ _ W V N) as En.
  assert (Vc' : Forall (fun c => arg_valid H (carg_arg c)) (CVal v :: cs)) by (constructor; auto).
  pose proof (resolves H asked (map carg_arg (CVal v :: cs)) os gs _ W Va Vo (carried_valid _ _ Vc') F R) as Er.
  destruct (chosen_fits _ _ _ _ _ _ F R) as (If & g & Fg & Ng).
  assert (Vf : fn_valid H f) by (rewrite Forall_forall in Vo; auto).
  apply Fits_test in Fg; auto; [|exact (carried_valid _ _ Vc')].
  destruct (c52_accepted_call_returns n E H st f asked (CVal v :: cs) g W Hv Vf Va Vc' P Rt Ro Fg Ng)
    as (vs & st1 & qs & st2 & r & st3 & oq & st4 & C & Pa & Re & Oq & Ec).
  inversion C as [|a c v0 sta cs' vs' stb C1 C2]; subst. inversion C1; subst.
  inversion Pa as [|stx v1 p q sty vs1 ps qs1 stz Pq Pr E1 E2 E3 E4]; subst.
  exists vs', st1, p, ps, q, qs1, st2, r, st3, oq, st4. rewrite <- E3 in *.
  split; [exact C2|]. split; [reflexivity|]. split; [exact Pa|]. split; [intros; eapply passed_self; eauto|].
  split; [exact Re|]. split; [exact Oq|].
  unfold value_call_ret. rewrite En. cbn [bind]. unfold overloads_call_ret. rewrite Er. cbn [bind]. exact Ec.
Qed.
Print Assumptions c67_method_call.

(* asked for a Value, the call hands over what the function returned *)
Theorem c67_method_call_value : forall n E H st v name cs os gs f,
  wf_heap H -> h_value H <> h_void H -> valid H (v_type v) ->
  Forall (fun c => arg_valid H (carg_arg c)) cs ->
  Nearest H t_fns name (v_type v) os -> Forall (fn_valid H) os ->
  Forall2 (Fits H (Arg (h_value H) Copy false) (v_arg v :: map carg_arg cs)) os gs ->
  resolution_spec (List.combine os gs) (Chosen f) ->
  Forall2 (passable E H) (CVal v :: cs) (f_args f) -> returnable E H f ->
  exists vs st1 p ps q qs st2 r st3,
    CarriedAll st cs vs st1 /\ f_args f = p :: ps /\
    PassedAll H st1 (v :: vs) (p :: ps) (q :: qs) st2 /\
    (a_type p <> h_value H -> a_ref p = LValue ->
       q = PRef (v_addr v) /\ (a_const p = false -> a_const (v_arg v) = false)) /\
    Returned E H f (q :: qs) st2 r st3 /\
    value_call (S (S n)) E H st v name cs = Ok (r, st3).
Proof.
  intros n E H st v name cs os gs f W Hv V Vc N Vo F R P Rt.
  pose proof (nearest_function _ _ _ _ W V N) as En.
  assert (Va : arg_valid H (Arg (h_value H) Copy false)) by exact (wf_value H W).
  assert (Vc' : Forall (fun c => arg_valid H (carg_arg c)) (CVal v :: cs)) by (constructor; auto).
  pose proof (resolves H _ (map carg_arg (CVal v :: cs)) os gs _ W Va Vo (carried_valid _ _ Vc') F R) as Er.
  destruct (chosen_fits _ _ _ _ _ _ F R) as (If & g & Fg & Ng).
  assert (Vf : fn_valid H f) by (rewrite Forall_forall in Vo; auto).
  apply Fits_test in Fg; auto; [|exact (carried_valid _ _ Vc')].
  destruct (c14_accepted_call_marshals n E H st f _ (CVal v :: cs) g W Hv Vf Vc' P Rt Fg Ng)
    as (vs & st1 & qs & st2 & r & st3 & C & Pa & Re & Ec).
  inversion C as [|a c v0 sta cs' vs' stb C1 C2]; subst. inversion C1; subst.
  inversion Pa as [|stx v1 p q sty vs1 ps qs1 stz Pq Pr E1 E2 E3 E4]; subst.
  exists vs', st1, p, ps, q, qs1, st2, r, st3. rewrite <- E3 in *.
  split; [exact C2|]. split; [reflexivity|]. split; [exact Pa|]. split; [intros; eapply passed_self; eauto|].
  split; [exact Re|].
  unfold value_call, type_call. rewrite En. cbn [bind]. unfold overloads_call. 
  change (ret_value H) with (Arg (h_value H) Copy false). rewrite Er. cbn [bind]. exact Ec.
Qed.
Print Assumptions c67_method_call_value.

(* no declaration of the name on the object's type or above it; or no overload
   fits; or several fit and none exactly: the call aborts, and nothing ran *)
Theorem c67_method_missing : forall n E H st v name asked cs, wf_heap H -> valid H (v_type v) ->
  ~ (exists c, ancestor H (v_type v) c /\ declares_fn H c name) ->
  value_call_ret n E H st v name asked cs = Abort /\ value_call n E H st v name cs = Abort.
Proof.
  intros n E H st v name asked cs W V N. unfold value_call_ret, value_call, type_call.
  destruct (c11_function_lookup H (v_type v) name W V) as [(_ & X & _)|(_ & _ & ->)]; [contradiction|]. split; reflexivity.
Qed.
Print Assumptions c67_method_missing.

Theorem c67_method_no_fit : forall n E H st v name asked cs os gs r,
  wf_heap H -> valid H (v_type v) -> arg_valid H asked -> Forall (fun c => arg_valid H (carg_arg c)) cs ->
  Nearest H t_fns name (v_type v) os -> Forall (fn_valid H) os ->
  Forall2 (Fits H asked (v_arg v :: map carg_arg cs)) os gs ->
  resolution_spec (List.combine os gs) r -> r = NoOverload \/ r = Ambiguous ->
  value_call_ret n E H st v name asked cs = Abort /\
  (asked = Arg (h_value H) Copy false -> value_call n E H st v name cs = Abort).
Proof.
  intros n E H st v name asked cs os gs r W V Va Vc N Vo F R D.
  pose proof (nearest_function _ _ _ _ W V N) as En.
  assert (Vc' : Forall (fun c => arg_valid H (carg_arg c)) (CVal v :: cs)) by (constructor; auto).
  pose proof (resolves H asked (map carg_arg (CVal v :: cs)) os gs _ W Va Vo (carried_valid _ _ Vc') F R) as Er.
  unfold value_call_ret, value_call, type_call. rewrite En. cbn [bind]. unfold overloads_call_ret, overloads_call.
  split; [|intros ->; change (ret_value H) with (Arg (h_value H) Copy false)]; rewrite Er; cbn [bind]; destruct D as [-> | ->]; reflexivity.
Qed.
Print Assumptions c67_method_no_fit.

(* The same for calls on a type, constructors and assignment. *)
Theorem c67_type_stops : forall n E H st T t cs, wf_heap H -> tget H T = Some t -> Forall (fun c => arg_valid H (carg_arg c)) cs ->
  (forall name asked, ~ (exists c, ancestor H T c /\ declares_fn H c name) ->
     type_call_ret n E H st T name asked cs = Abort /\ type_call n E H st T name cs = Abort) /\
  (~ (exists c, ancestor H T c /\ declares_fn H c (t_id t)) -> construct n E H st T cs = Abort) /\
  (forall name asked os gs r, arg_valid H asked -> Nearest H t_fns name T os -> Forall (fn_valid H) os ->
     Forall2 (Fits H asked (map carg_arg cs)) os gs -> resolution_spec (List.combine os gs) r -> r = NoOverload \/ r = Ambiguous ->
     type_call_ret n E H st T name asked cs = Abort /\
     (asked = Arg (h_value H) Copy false -> type_call n E H st T name cs = Abort /\
       (name = t_id t -> construct n E H st T cs = Abort))).
Proof.
  intros n E H st T t cs W Et Vc.
  assert (V : valid H T) by (apply nth_error_Some; unfold tget in Et; congruence).
  assert (A : forall name asked, ~ (exists c, ancestor H T c /\ declares_fn H c name) ->
     type_call_ret n E H st T name asked cs = Abort /\ type_call n E H st T name cs = Abort).
  { intros name asked N. unfold type_call_ret, type_call.
    destruct (c11_function_lookup H T name W V) as [(_ & X & _)|(_ & _ & ->)]; [contradiction|]. split; reflexivity. }
  split; [exact A|]. split.
  - intro N. unfold construct. rewrite Et. exact (proj2 (A (t_id t) (ret_value H) N)).
  - intros name asked os gs r Va N Vo F R D. pose proof (nearest_function _ _ _ _ W V N) as En.
    pose proof (resolves H asked (map carg_arg cs) os gs _ W Va Vo (carried_valid _ _ Vc) F R) as Er.
    assert (B : asked = Arg (h_value H) Copy false -> type_call n E H st T name cs = Abort).
    { intros ->. unfold type_call. rewrite En. cbn [bind]. unfold overloads_call.
      change (ret_value H) with (Arg (h_value H) Copy false). rewrite Er. cbn [bind]. destruct D as [-> | ->]; reflexivity. }
    split; [|intro Ea; split; [auto|intros ->; unfold construct; rewrite Et; auto]].
    unfold type_call_ret. rewrite En. cbn [bind]. unfold overloads_call_ret. rewrite Er. cbn [bind]. destruct D as [-> | ->]; reflexivity.
Qed.
Print Assumptions c67_type_stops.

Theorem c67_assign_stops : forall n E H st v c, wf_heap H -> valid H (v_type v) -> arg_valid H (carg_arg c) -> valid H (h_void H) ->
  (~ (exists k, ancestor H (v_type v) k /\ declares_fn H k (lit "operator=")) -> value_assign n E H st v c = Abort) /\
  (forall os gs r, Nearest H t_fns (lit "operator=") (v_type v) os -> Forall (fn_valid H) os ->
     Forall2 (Fits H (Arg (h_void H) Copy false) [v_arg v; carg_arg c]) os gs ->
     resolution_spec (List.combine os gs) r -> r = NoOverload \/ r = Ambiguous -> value_assign n E H st v c = Abort).
Proof.
  intros n E H st v c W V Vc Vv. split.
  - intro N. unfold value_assign. now apply c67_method_missing.
  - intros os gs r N Vo F R D. unfold value_assign.
    exact (proj1 (c67_method_no_fit n E H st v (lit "operator=") (Arg (h_void H) Copy false) [c] os gs r W V Vv
      ltac:(constructor; auto) N Vo F R D)).
Qed.
Print Assumptions c67_assign_stops.

(* Type::call: the same with no object *)
Theorem c67_type_call : forall n E H st T name asked cs os gs f,
  wf_heap H -> h_value H <> h_void H -> valid H T -> arg_valid H asked ->
  Forall (fun c => arg_valid H (carg_arg c)) cs ->
  Nearest H t_fns name T os -> Forall (fn_valid H) os ->
  Forall2 (Fits H asked (map carg_arg cs)) os gs ->
  resolution_spec (List.combine os gs) (Chosen f) ->
  Forall2 (passable E H) cs (f_args f) -> returnable E H f -> result_ok E H (f_ret f) asked ->
  exists vs st1 qs st2 r st3 oq st4,
    CarriedAll st cs vs st1 /\ PassedAll H st1 vs (f_args f) qs st2 /\ Returned E H f qs st2 r st3 /\
    ((a_type asked = h_void H /\ oq = None /\ st4 = st3) \/
     (a_type asked <> h_void H /\ exists q', oq = Some q' /\ Passed H st3 r asked q' st4)) /\
    type_call_ret (S (S n)) E H st T name asked cs = Ok (oq, st4).
Proof.
  intros n E H st T name asked cs os gs f W Hv V Va Vc N Vo F R P Rt Ro.
  pose proof (nearest_function _ _ _ _ W V N) as En.
  pose proof (resolves H asked (map carg_arg cs) os gs _ W Va Vo (carried_valid _ _ Vc) F R) as Er.
  destruct (chosen_fits _ _ _ _ _ _ F R) as (If & g & Fg & Ng).
  assert (Vf : fn_valid H f) by (rewrite Forall_forall in Vo; auto).
  apply Fits_test in Fg; auto; [|exact (carried_valid _ _ Vc)].
  destruct (c52_accepted_call_returns n E H st f asked cs g W Hv Vf Va Vc P Rt Ro Fg Ng)
    as (vs & st1 & qs & st2 & r & st3 & oq & st4 & C & Pa & Re & Oq & Ec).
  exists vs, st1, qs, st2, r, st3, oq, st4. split; [exact C|]. split; [exact Pa|]. split; [exact Re|]. split; [exact Oq|].
  unfold type_call_ret. rewrite En. cbn [bind]. unfold overloads_call_ret. rewrite Er. cbn [bind]. exact Ec.
Qed.
Print Assumptions c67_type_call.

(* Value::convert: the one conversion function declared for the target is run on
   the object; several, or none, abort *)
Theorem c67_convert : forall n E H st v T t f asked g, wf_heap H -> h_value H <> h_void H ->
  valid H (v_type v) -> tget H T = Some t -> arg_valid H asked ->
  Nearest H t_fns (lit "operator " ++ t_id t ++ lit "()") (v_type v) [f] -> fn_valid H f ->
  Fits H asked [v_arg v] f g -> g <> MNone ->
  Forall2 (passable E H) [CVal v] (f_args f) -> returnable E H f -> result_ok E H (f_ret f) asked ->
  exists p q st2 r st3 oq st4,
    f_args f = [p] /\ Passed H st v p q st2 /\ Returned E H f [q] st2 r st3 /\
    ((a_type asked = h_void H /\ oq = None /\ st4 = st3) \/
     (a_type asked <> h_void H /\ exists q', oq = Some q' /\ Passed H st3 r asked q' st4)) /\
    value_convert_ret (S (S n)) E H st v T asked = Ok (oq, st4).
Proof.
  intros n E H st v T t f asked g W Hv V Et Va N Vf F Ng P Rt Ro.
  pose proof (nearest_function _ _ _ _ W V N) as En.
  apply Fits_test in F; auto.
  destruct (c52_accepted_call_returns n E H st f asked [CVal v] g W Hv Vf Va) as
    (vs & st1 & qs & st2 & r & st3 & oq & st4 & C & Pa & Re & Oq & Ec); auto.
  inversion C as [|st0' c0 v0 sta cs' vs' stb C1 C2]; subst. inversion C1; subst. inversion C2; subst.
  inversion Pa as [|stx v1 p q sty vs1 ps qs1 stz Pq Pr E1 E2 E3 E4]; subst. inversion Pr; subst.
  exists p, q, st2, r, st3, oq, st4. split; [reflexivity|]. split; [exact Pq|]. split; [exact Re|]. split; [exact Oq|].
  unfold value_convert_ret, converter. rewrite Et. unfold converterName. rewrite En. cbn [bind]. exact Ec.
Qed.
Print Assumptions c67_convert.
Theorem c67_convert_not_unique : forall n E H st v T t asked, wf_heap H -> valid H (v_type v) -> tget H T = Some t ->
  (~ has_user_conversion H (v_type v) T \/
   exists f g os, Nearest H t_fns (lit "operator " ++ t_id t ++ lit "()") (v_type v) (f :: g :: os)) ->
  value_convert_ret n E H st v T asked = Abort.
Proof.
  intros n E H st v T t asked W V Et D. unfold value_convert_ret, converter. rewrite Et. unfold converterName.
  destruct D as [D|(f & g & os & N)].
  - destruct (c11_function_lookup H (v_type v) (lit "operator " ++ t_id t ++ lit "()") W V) as [(_ & (c & A & X) & _)|(_ & _ & E1)].
    + exfalso. apply D. exists t, c. auto.
    + rewrite E1. reflexivity.
  - rewrite (nearest_function _ _ _ _ W V N). reflexivity.
Qed.
Print Assumptions c67_convert_not_unique.

(* Type::construct: the constructors are the functions named after the type; the
   result is a new object of that type which the handle stores. *)
Theorem c67_construct : forall n E H st T t cs os gs f,
  wf_heap H -> h_value H <> h_void H -> tget H T = Some t -> T <> h_void H -> T <> h_value H ->
  Forall (fun c => arg_valid H (carg_arg c)) cs ->
  Nearest H t_fns (t_id t) T os -> Forall (fn_valid H) os ->
  Forall2 (Fits H (Arg (h_value H) Copy false) (map carg_arg cs)) os gs ->
  resolution_spec (List.combine os gs) (Chosen f) ->
  Forall2 (passable E H) cs (f_args f) -> f_ret f = Arg T Copy false -> cpp_copyable E T = true \/ cpp_movable E T = true ->
  exists vs st1 qs st2,
    CarriedAll st cs vs st1 /\ PassedAll H st1 vs (f_args f) qs st2 /\
    construct (S (S n)) E H st T cs =
      Ok (Val (Arg T LValue false) (st_next st2, 0%N) true, St (S (st_next st2)) (st_log st2 ++ [(f_code f, qs)])).
Proof.
  intros n E H st T t cs os gs f W Hv Et Nv NV Vc N Vo F R P Ef Cm.
  assert (V : valid H T) by (unfold valid; unfold tget in Et; apply nth_error_Some; congruence).
  pose proof (nearest_function _ _ _ _ W V N) as En.
  assert (Va : arg_valid H (Arg (h_value H) Copy false)) by exact (wf_value H W).
  pose proof (resolves H _ (map carg_arg cs) os gs _ W Va Vo (carried_valid _ _ Vc) F R) as Er.
  destruct (chosen_fits _ _ _ _ _ _ F R) as (If & g & Fg & Ng).
  assert (Vf : fn_valid H f) by (rewrite Forall_forall in Vo; auto).
  apply Fits_test in Fg; auto; [|exact (carried_valid _ _ Vc)].
  assert (Rt : returnable E H f).
  { intros _ _ _. rewrite Ef. unfold storable. cbn [a_type a_const negb andb]. destruct Cm as [-> | ->]; auto. apply orb_true_r. }
  destruct (c14_accepted_call_marshals n E H st f _ cs g W Hv Vf Vc P Rt Fg Ng)
    as (vs & st1 & qs & st2 & r & st3 & C & Pa & Re & Ec).
  exists vs, st1, qs, st2. split; [exact C|]. split; [exact Pa|].
  unfold construct, type_call. rewrite Et, En. cbn [bind]. unfold overloads_call.
  change (ret_value H) with (Arg (h_value H) Copy false). rewrite Er. cbn [bind]. unfold call_value.
  change (ret_value H) with (Arg (h_value H) Copy false). rewrite Ec.
  inversion Re; rewrite Ef in *; cbn [a_type a_ref] in *; try congruence.
Qed.
Print Assumptions c67_construct.

(* Value::assign runs the operator= chosen for the object and the argument, on
   the object itself, and gives nothing back *)
Theorem c67_assign : forall n E H st v c os gs f,
  wf_heap H -> h_value H <> h_void H -> valid H (v_type v) -> arg_valid H (carg_arg c) ->
  Nearest H t_fns (lit "operator=") (v_type v) os -> Forall (fn_valid H) os ->
  Forall2 (Fits H (Arg (h_void H) Copy false) [v_arg v; carg_arg c]) os gs ->
  resolution_spec (List.combine os gs) (Chosen f) ->
  Forall2 (passable E H) [CVal v; c] (f_args f) -> returnable E H f ->
  (exists p p', f_args f = [p; p'] /\ a_ref p = LValue /\ a_const p = false /\ a_type p <> h_value H) ->
  a_const (v_arg v) = false /\
  exists w st1 p p' q st2 r st3,
    f_args f = [p; p'] /\ Carried st c w st1 /\ Passed H st1 w p' q st2 /\
    Returned E H f [PRef (v_addr v); q] st2 r st3 /\
    value_assign (S (S n)) E H st v c = Ok (None, st3).
Proof.
  intros n E H st v c os gs f W Hv V Vc N Vo F R P Rt (p & p' & Ea & Lp & Cp & Np).
  destruct (c67_method_call n E H st v (lit "operator=") (Arg (h_void H) Copy false) [c] os gs f W Hv V (wf_void H W)
              (Forall_cons c (P := fun c => arg_valid H (carg_arg c)) Vc (Forall_nil _)) N Vo F R P Rt (or_introl eq_refl))
    as (vs & st1 & p0 & ps & q & qs & st2 & r & st3 & oq & st4 & C & Ep & Pa & Self & Re & Oq & Ec).
  rewrite Ea in Ep. injection Ep as <- <-. destruct (Self Np Lp) as [-> Cv]. split; [auto|].
  inversion C as [|st0' c0 w sta cs' vs' stb C1 C2]; subst. inversion C2; subst.
  inversion Pa as [|stx v1 p1 q1 sty vs1 ps qs1 stz Pq Pr]; subst.
  inversion Pr as [|stc v2 p2 q2 stc' vs2 ps2 qs2 std Pq2 Pr2]; subst. inversion Pr2; subst.
  inversion Pq; subst; try congruence.
  do 2 eexists. exists p, p', q2. do 3 eexists. split; [exact Ea|]. split; [exact C1|]. split; [exact Pq2|]. split; [exact Re|].
  unfold value_assign. change (ret_void H) with (Arg (h_void H) Copy false). rewrite Ec.
  destruct Oq as [(_ & -> & ->)|(X & _)]; [reflexivity|]. cbn in X. congruence.
Qed.
Print Assumptions c67_assign.

(* ---- a concrete world: Acc : Base with add(int), add(const Full&) const and
   assignment; SubAcc : Acc adds nothing ---- *)
Definition add_int : fn := Fn (lit "add") (Arg 2 Copy false) [Arg 13 LValue false; Arg 2 Copy false] 60.
Definition add_full : fn := Fn (lit "add") (Arg 2 Copy false) [Arg 13 LValue true; Arg 11 LValue true] 61.
Definition acc_assign : fn := Fn (lit "operator=") (Arg 13 LValue false) [Arg 13 LValue false; Arg 13 LValue true] 62.
Definition acc_new : fn := Fn (lit "Acc") (Arg 13 Copy false) [Arg 2 Copy false] 63.
Definition callTypes : list typerec := valTypes ++
  [ Type_ (lit "Acc") (Some 3) [] [] None []
      [ (lit "add", [add_full; add_int]); (lit "operator=", [acc_assign]); (lit "Acc", [acc_new]) ];
    Type_ (lit "SubAcc") (Some 13) [] [] None [] [] ].
Definition callHeap : heap := Heap callTypes 0 1.
Lemma callHeap_wf : wf_heap callHeap.
Proof. apply wf_check_ok. reflexivity. Qed.
Ltac nosub2 := let X := fresh in intro X; apply isChildOf_spec in X; [discriminate|apply callHeap_wf|vld..].
Ltac noconv2 := let X := fresh in intro X; apply hasConverter_spec in X; [discriminate|apply callHeap_wf|vld..].
Ltac sub2 := apply isChildOf_spec; [apply callHeap_wf|vld|vld|reflexivity].

Lemma test_Fits H asked args f g : wf_heap H -> arg_valid H asked -> fn_valid H f -> Forall (arg_valid H) args ->
  test_sig H f asked args = Ok g -> Fits H asked args f g.
Proof.
  intros W Va Vf Vs T. destruct (Fits_total H asked args f W Va Vf Vs) as [g' G].
  pose proof (Fits_test _ _ _ _ _ W Va Vf Vs G). congruence.
Qed.
Lemma int_plumbed : plumbed exCpp callHeap 2 2.
Proof.
  constructor; try (cbn; lia); try reflexivity; [|noconv2].
  eexists _, _, 1. split; [reflexivity|]. split; [reflexivity|]. split; [repeat constructor; vld|].
  split; [left; reflexivity|]. split; [repeat constructor; cbn; intuition discriminate|].
  intros f p [<-|[]] Ep; cbn in Ep. injection Ep as <-. left. split; [reflexivity|auto].
Qed.
Lemma str_converts2 : conversion_ok exCpp callHeap 7 2.
Proof.
  repeat split; cbn; try lia; auto. exists 7. eexists _, _, 7. split; [reflexivity|]. split; [reflexivity|].
  split; [vld|]. split; [cbn; lia|]. split; [constructor|noconv2].
Qed.

(* obj.call<int>("add", str) on a SubAcc: the inherited add(int) is run on the
   object, with the string converted *)
Definition acc_obj : value := Val (Arg 14 LValue false) (5, 0%N) false.
Definition acc_str : carg := CRaw (Arg 7 LValue true) (3, 0%N).
Example c67_method_call_ex :
  Nearest callHeap t_fns (lit "add") 14 [add_full; add_int] /\ Forall (fn_valid callHeap) [add_full; add_int] /\
  Forall2 (Fits callHeap (Arg 2 Copy false) [v_arg acc_obj; carg_arg acc_str]) [add_full; add_int] [MNone; MPartial] /\
  resolution_spec (List.combine [add_full; add_int] [MNone; MPartial]) (Chosen add_int) /\
  Forall2 (passable exCpp callHeap) [CVal acc_obj; acc_str] (f_args add_int) /\
  returnable exCpp callHeap add_int /\ result_ok exCpp callHeap (f_ret add_int) (Arg 2 Copy false) /\
  value_call_ret 2 exCpp callHeap st0 acc_obj (lit "add") (Arg 2 Copy false) [acc_str] =
    Ok (Some (PCopy (1002, 0%N)), St 1003 [(7, [PRef (3, 0%N)]); (60, [PRef (5, 0%N); PCopy (1000, 0%N)]); (1, [PRef (1001, 0%N)])]).
Proof.
  assert (VF : Forall (fn_valid callHeap) [add_full; add_int]) by (repeat constructor; vld).
  split. { eapply Near_parent; [reflexivity|cbn; tauto|reflexivity|]. eapply Near_here; reflexivity. }
  split; [exact VF|].
  split. { constructor; [|constructor; [|constructor]]; (apply test_Fits; [apply callHeap_wf|vld| |repeat constructor; vld|reflexivity]);
           repeat constructor; vld. }
  split. { right. split; [intros f g [X|[X|[]]]; injection X as <- <-; discriminate|].
           exists [(add_full, MNone)], []. split; [reflexivity|]. intros h g [X|[]]. now injection X as <- <-. }
  split. { constructor; [|constructor; [|constructor]].
           - split; [exact I|]. split; [cbn; lia|]. right. split; [cbn; lia|cbn; exact I].
           - split; [cbn; intro; discriminate|]. split; [cbn; lia|]. right. split; [cbn; lia|]. right. cbn.
             split; [nosub2|]. split; [reflexivity|apply str_converts2]. }
  split; [intros _ _ _; reflexivity|].
  split; [|reflexivity].
  right; right. cbn. repeat split; try lia. left. split; [constructor|]. split; [noconv2|apply int_plumbed].
Qed.
Example c67_errors_ex : value_call 2 exCpp callHeap st0 acc_obj (lit "sub") [] = Abort /\
  value_call 2 exCpp callHeap st0 acc_obj (lit "add") [CVal acc_obj] = Abort /\
  value_call 2 exCpp callHeap st0 (toConst acc_obj) (lit "add") [acc_str] = Abort.
Proof. repeat split. Qed.
Example c67_assign_ex :
  Nearest callHeap t_fns (lit "operator=") 14 [acc_assign] /\ Forall (fn_valid callHeap) [acc_assign] /\
  Forall2 (Fits callHeap (Arg 0 Copy false) [v_arg acc_obj; Arg 13 LValue false]) [acc_assign] [MPartial] /\
  resolution_spec (List.combine [acc_assign] [MPartial]) (Chosen acc_assign) /\
  Forall2 (passable exCpp callHeap) [CVal acc_obj; CRaw (Arg 13 LValue false) (6, 0%N)] (f_args acc_assign) /\
  returnable exCpp callHeap acc_assign /\
  value_assign 2 exCpp callHeap st0 acc_obj (CRaw (Arg 13 LValue false) (6, 0%N)) =
    Ok (None, St 1000 [(62, [PRef (5, 0%N); PRef (6, 0%N)])]).
Proof.
  assert (VF : Forall (fn_valid callHeap) [acc_assign]) by (repeat constructor; vld).
  split. { eapply Near_parent; [reflexivity|cbn; tauto|reflexivity|]. eapply Near_here; reflexivity. }
  split; [exact VF|].
  split. { constructor; [|constructor]. apply test_Fits; [apply callHeap_wf|vld| |repeat constructor; vld|reflexivity]. repeat constructor; vld. }
  split. { right. split; [intros f g [X|[]]; injection X as <- <-; discriminate|].
           exists [], []. split; [reflexivity|]. intros h g []. }
  split. { constructor; [|constructor; [|constructor]].
           - split; [exact I|]. split; [cbn; lia|]. right. split; [cbn; lia|cbn; exact I].
           - split; [cbn; intro; discriminate|]. split; [cbn; lia|]. right. split; [cbn; lia|cbn; exact I]. }
  split; [intros _ _ X; exfalso; now apply X|reflexivity].
Qed.
Example c67_construct_ex :
  Nearest callHeap t_fns (lit "Acc") 13 [acc_new] /\
  Forall2 (Fits callHeap (Arg 1 Copy false) [carg_arg acc_str]) [acc_new] [MPartial] /\
  Forall2 (passable exCpp callHeap) [acc_str] (f_args acc_new) /\
  construct 2 exCpp callHeap st0 13 [acc_str] =
    Ok (Val (Arg 13 LValue false) (1001, 0%N) true, St 1002 [(7, [PRef (3, 0%N)]); (63, [PCopy (1000, 0%N)])]).
Proof.
  split. { eapply Near_here; reflexivity. }
  split. { constructor; [|constructor]. apply test_Fits; [apply callHeap_wf|vld| |repeat constructor; vld|reflexivity]. repeat constructor; vld. }
  split; [|reflexivity]. constructor; [|constructor].
  split; [cbn; intro; discriminate|]. split; [cbn; lia|]. right. split; [cbn; lia|]. right. cbn.
  split; [nosub2|]. split; [reflexivity|apply str_converts2].
Qed.

(* ===== C55, continued: Value::field<T&> and field<const T&> ===== *)
Theorem c55_field_reference : forall n E H st v name w T c, wf_heap H -> valid H (v_type w) -> valid H T ->
  T <> h_void H -> T <> h_value H -> value_field H v name = Ok w ->
  (Subtype H (v_type w) T /\ (c = true \/ a_const (v_arg w) = false) /\
     value_field_ret (S n) E H st v name (Arg T LValue c) = Ok (Some (PRef (v_addr w)), st)) \/
  (~ (Subtype H (v_type w) T /\ (c = true \/ a_const (v_arg w) = false)) /\
     value_field_ret (S n) E H st v name (Arg T LValue c) = Abort).
Proof.
  intros n E H st v name w T c W Vw VT N1 N2 Ew. unfold value_field_ret, ret_cast, pass. rewrite Ew. cbn [bind a_type a_ref].
  rewrite (nat_eqb_neq _ _ N1), (nat_eqb_neq _ _ N2). cbn [andb cast_f a_ref]. unfold lref. cbn [a_type a_const].
  assert (Lw : a_ref (v_arg w) = LValue).
  { unfold value_field in Ew. destruct (field_ H (v_type v) name); try discriminate. cbn [bind] in Ew. injection Ew as <-. reflexivity. }
  destruct (c01_subtyping_is_ancestry H (v_type w) T W Vw VT) as [(S & E1 & E2)|(S & E1 & E2)]; rewrite E2; cbn [bind].
  - destruct c; cbn [bind].
    + left. split; [exact S|]. split; [auto|]. unfold cast_ret, value_as. cbn [a_ref ref_eqb a_type]. rewrite E1. reflexivity.
    + rewrite Lw. cbn [ref_eqb]. rewrite andb_true_r. destruct (a_const (v_arg w)) eqn:Ec; cbn [negb bind].
      * right. split; [|reflexivity]. intros (_ & [X|X]); discriminate.
      * left. split; [exact S|]. split; [auto|]. unfold cast_ret, value_as. cbn [a_ref ref_eqb a_type]. rewrite E1. reflexivity.
  - right. split; [|reflexivity]. intros (X & _). contradiction.
Qed.
Print Assumptions c55_field_reference.
Example c55_field_reference_ex : let v := Val (Arg 12 LValue true) (7, 0%N) false in
  value_field valHeap v (lit "b") = Ok (Val (Arg 4 LValue true) (7, 16%N) false) /\
  value_field_ret 1 exCpp valHeap st0 v (lit "b") (Arg 3 LValue true) = Ok (Some (PRef (7, 16%N)), st0) /\
  value_field_ret 1 exCpp valHeap st0 v (lit "b") (Arg 3 LValue false) = Abort.
Proof. repeat split. Qed.
Example c67_convert_ex : exists f, Nearest valHeap t_fns (lit "operator " ++ lit "int" ++ lit "()") 7 [f] /\
  value_convert_ret 2 exCpp valHeap st0 (Val (Arg 7 LValue true) (3, 0%N) false) 2 (Arg 1 Copy false) =
    Ok (Some (PVal (Val (Arg 2 LValue false) (1000, 0%N) true)), St 1001 [(7, [PRef (3, 0%N)])]) /\
  value_convert_ret 2 exCpp valHeap st0 (Val (Arg 10 LValue true) (3, 0%N) false) 2 (Arg 1 Copy false) = Abort.
Proof. eexists. split; [eapply Near_here; reflexivity|]. split; reflexivity. Qed.
