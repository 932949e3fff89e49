(* ProofGlobal.v - lemmas about reflected global variables (used by PropGlobal, C81). *)
From Coq Require String.
Import String.StringSyntax.
From Verif Require Import Base ModelCore SpecCore ProofCore ProofMatch ModelScope SpecScope ProofScope1 ProofScope2 ProofScope3 ProofScope4
  ModelValue SpecValue ProofValue ProofPlumb2 ModelCall ModelCont SpecCont ProofCont ProofCont2 ModelPtr SpecPtr ProofPtr2
  SpecPlain ProofPlain ModelOps ModelGlobal SpecGlobal.
Local Open Scope outcome_scope.

(* the call through a type is the same after the lookup *)
Lemma type_call_is B n E H m st T name ret vs :
  mcall_for B n E H m st T name ret vs = do os <- function H T name; moverloads_call B n E H m st os ret vs.
Proof. reflexivity. Qed.

Lemma moverloads_chosen B n E H m st os ret vs f g qs st1 m1 :
  overloads_resolve H os ret (map v_arg vs) = Ok (Chosen f) ->
  test_sig H f ret (map v_arg vs) = Ok g -> g <> MNone ->
  pass_all n E H st vs (f_args f) = Ok (qs, st1) ->
  run_ctors m (st_next st) (skipn (length (st_log st)) (st_log st1)) = Ok m1 ->
  moverloads_call B n E H m st os ret vs = bind (B (f_code f) qs m1 (st_next st1)) (finish E H f qs (st_log st1)).
Proof.
  intros Er Et Ng Ep Em. unfold moverloads_call. rewrite Er. cbn [bind]. rewrite Et. cbn [bind].
  destruct g; [congruence| |]; cbn [grade_eqb]; rewrite Ep; cbn [bind]; rewrite Em; cbn [bind]; reflexivity.
Qed.

(* ----- registration ----- *)
Lemma fns_at_fun S x c os os' : fns_at S x c os -> fns_at S x c os' -> os = os'.
Proof.
  unfold fns_at, vfn. intros [(p & s & A & B & C)|(-> & A)] [(p' & s' & A' & B' & C')|(-> & A')]; try congruence.
  - exfalso. apply (A' os). exists p, s. auto.
  - exfalso. apply (A os'). exists p', s'. auto.
Qed.
Lemma add_raw_ok H S cs c ret args code os os1 : wf_scopes S -> Forall component (cs ++ [c]) -> fns_at S cs c os ->
  overloads_add H os (Fn c ret args code) = Ok os1 ->
  exists S', add_raw H S 0 (qname (cs ++ [c])) ret args code = Ok S' /\ wf_scopes S' /\
    vfn S' cs c os1 /\
    (forall x d os', (x <> cs \/ d <> c) -> (vfn S' x d os' <-> vfn S x d os')) /\
    (forall x d, vtype S' x d <-> vtype S x d) /\
    (forall x q, walk S 0 x = Some q -> walk S' 0 x = Some q).
Proof.
  intros W F Fo A. unfold add_raw. rewrite tail_qname by auto. cbn [bind]. unfold saddFunction.
  assert (R0 : walk S 0 [] = Some 0) by reflexivity.
  assert (Ln : 1 < Datatypes.S (length (qname (cs ++ [c])))).
  { assert (N : qname (cs ++ [c]) <> []) by (apply qname_nonempty; [now destruct cs|exact F]).
    destruct (qname (cs ++ [c])); [congruence|cbn; lia]. }
  destruct (saddFunction_views H (Fn c ret args code) _ cs c S 0 [] _ (FSplits_qname _ _ F) W R0 Ln) as (os0 & A0 & [(os2 & S2 & Eo & E2 & W2 & Wk & V & T & Fn)|(B & _)]).
  - cbn [app] in *. rewrite (fns_at_fun _ _ _ _ _ A0 Fo) in Eo. rewrite A in Eo. injection Eo as <-.
    exists S2. split; [exact E2|]. split; [exact W2|]. split; [apply Fn; right; auto|]. split; [|split; auto].
    intros x d os' D. rewrite Fn. intuition congruence.
  - exfalso. cbn [app] in A0. rewrite (fns_at_fun _ _ _ _ _ A0 Fo) in B. exact (B _ A).
Qed.
Lemma add_raw_no H S cs c ret args code os : wf_scopes S -> Forall component (cs ++ [c]) -> fns_at S cs c os ->
  (forall os1, overloads_add H os (Fn c ret args code) <> Ok os1) -> forall S', add_raw H S 0 (qname (cs ++ [c])) ret args code <> Ok S'.
Proof.
  intros W F Fo A S'. unfold add_raw. rewrite tail_qname by auto. cbn [bind]. unfold saddFunction.
  assert (R0 : walk S 0 [] = Some 0) by reflexivity.
  assert (Ln : 1 < Datatypes.S (length (qname (cs ++ [c])))).
  { assert (N : qname (cs ++ [c]) <> []) by (apply qname_nonempty; [now destruct cs|exact F]).
    destruct (qname (cs ++ [c])); [congruence|cbn; lia]. }
  destruct (saddFunction_views H (Fn c ret args code) _ cs c S 0 [] _ (FSplits_qname _ _ F) W R0 Ln) as (os0 & A0 & [(os2 & S2 & Eo & _)|(_ & B)]).
  - exfalso. cbn [app] in A0. rewrite (fns_at_fun _ _ _ _ _ A0 Fo) in Eo. exact (A _ Eo).
  - apply B.
Qed.
Lemma add_first H f : overloads_add H [] f = Ok [f].
Proof. reflexivity. Qed.
(* the writer is not interchangeable with the reader *)
Lemma add_writer H nm T U code code' : 
  overloads_add H [Fn nm (Arg T Copy false) [] code] (Fn nm (Arg (h_void H) Copy false) [Arg U LValue true] code') =
  match testReturn H (Arg T Copy false) (Arg (h_void H) Copy false) with
  | Ok _ => Ok [Fn nm (Arg T Copy false) [] code; Fn nm (Arg (h_void H) Copy false) [Arg U LValue true] code']
  | Abort => Abort | Throw => Throw | UB => UB | OutOfFuel => OutOfFuel end.
Proof.
  unfold overloads_add. cbn [add_check]. unfold test_fn. cbn [f_ret f_args].
  destruct (testReturn H (Arg T Copy false) (Arg (h_void H) Copy false)) as [g| | | |]; try reflexivity. cbn.
  destruct g; reflexivity.
Qed.
Lemma ret_of_void H T : exists g, testReturn H (Arg T Copy false) (Arg (h_void H) Copy false) = Ok g.
Proof.
  unfold testReturn. cbn [a_type a_ref]. rewrite Nat.eqb_refl. destruct (Nat.eqb T (h_void H)); eauto. destruct (Nat.eqb T (h_value H)); cbn; eauto.
Qed.
Lemma var_registered H S sc cs c T k code : wf_scopes S -> Forall component (cs ++ [c]) -> (forall os, ~ vfn S cs c os) ->
  exists S', reflectGlobalVar H S sc (qname (cs ++ [c])) T k code = Ok S' /\ wf_scopes S' /\
    (forall a, vfn S' cs c (accessors H (Global cs c T k a) code)) /\
    (forall x d os', (x <> cs \/ d <> c) -> (vfn S' x d os' <-> vfn S x d os')) /\
    (forall x d, vtype S' x d <-> vtype S x d) /\
    (forall x q, walk S 0 x = Some q -> walk S' 0 x = Some q).
Proof.
  intros W F N. unfold reflectGlobalVar.
  destruct (add_raw_ok H S cs c (Arg T Copy false) [] code [] _ W F (or_intror (conj eq_refl N)) (add_first _ _)) as (S1 & E1 & W1 & V1 & O1 & T1 & K1).
  rewrite E1. cbn [bind]. destruct k.
  { exists S1. repeat (split; auto). }
  destruct (ret_of_void H T) as (g & Eg).
  destruct (add_raw_ok H S1 cs c (Arg (h_void H) Copy false) [Arg T LValue true] (Datatypes.S code) _
    [Fn c (Arg T Copy false) [] code; Fn c (Arg (h_void H) Copy false) [Arg T LValue true] (Datatypes.S code)] W1 F (or_introl V1)) as (S2 & E2 & W2 & V2 & O2 & T2 & K2).
  { rewrite add_writer, Eg. reflexivity. }
  exists S2. split; [exact E2|]. split; [exact W2|]. split; [intro; exact V2|]. split; [|split; auto].
  - intros x d os' D. rewrite O2, O1 by auto. reflexivity.
  - intros x d. rewrite T2, T1. reflexivity.
Qed.

(* ----- resolution ----- *)
Lemma resolve_none H os ret args : (forall f, In f os -> test_sig H f ret args = Ok MNone) -> overloads_resolve H os ret args = Ok NoOverload.
Proof.
  intros N. unfold overloads_resolve. enough (G : resolve_loop H os ret args None false = Ok (None, false)) by (rewrite G; reflexivity).
  induction os as [|a os IH]; [reflexivity|]. cbn [resolve_loop]. rewrite (N a) by now left. cbn [bind grade_eqb]. apply IH. intros f I. apply N. now right.
Qed.
Lemma resolve_first H f l ret args g : test_sig H f ret args = Ok g -> g <> MNone -> (forall f', In f' l -> test_sig H f' ret args = Ok MNone) ->
  overloads_resolve H (f :: l) ret args = Ok (Chosen f).
Proof.
  intros T Ng N. unfold overloads_resolve. cbn [resolve_loop]. rewrite T. cbn [bind].
  assert (G : forall b, resolve_loop H l ret args (Some b) false = Ok (Some b, false)).
  { intro b. clear T. induction l as [|a l IH]; [reflexivity|]. cbn [resolve_loop]. rewrite (N a) by now left. cbn [bind grade_eqb]. apply IH. intros f' I. apply N. now right. }
  destruct g; [congruence| |]; cbn [grade_eqb andb]; rewrite ?G; reflexivity.
Qed.
Lemma arity_none H f ret args g : testReturn H ret (f_ret f) = Ok g -> length args <> length (f_args f) -> test_sig H f ret args = Ok MNone.
Proof.
  intros R L. unfold test_sig. rewrite R. cbn [bind]. unfold testArguments. rewrite nat_eqb_neq by auto. cbn. now destruct g.
Qed.

(* ----- the accessors ----- *)
Section Accessors.
Context (E : cpp) (H : heap) (W : wf_heap H) (NV : h_value H <> h_void H).
Context (vars : list addr) (rest : body) (g : global) (k : nat) (V : value_type E H (g_type g)) (At : nth_error vars k = Some (g_at g)).
Notation T := (g_type g).
Notation acc := (accessors H g (2 * k)).
Notation B := (globals_body vars rest).
Notation reader := (Fn (g_name g) (Arg T Copy false) [] (2 * k)).
Notation writer := (Fn (g_name g) (Arg (h_void H) Copy false) [Arg T LValue true] (S (2 * k))).

Lemma reader_body qs m next : B (2 * k) qs m next = var_body (g_at g) false qs m next.
Proof. unfold globals_body. rewrite Nat.div2_double, At. rewrite Nat.odd_mul. reflexivity. Qed.
Lemma writer_body qs m next : B (S (2 * k)) qs m next = var_body (g_at g) true qs m next.
Proof. unfold globals_body. rewrite Nat.div2_succ_double, At. rewrite Nat.odd_succ, Nat.even_mul. reflexivity. Qed.

Lemma read_acc n m st ret p : testReturn H ret (Arg T Copy false) = Ok MExact -> (exists x, testReturn H ret (Arg (h_void H) Copy false) = Ok x) ->
  read m (g_at g) = Some p ->
  exists log', moverloads_call B n E H m st acc ret [] =
    Ok (Val (Arg T LValue false) (st_next st, 0%N) true, mset m (st_next st) (DData p), St (S (st_next st)) log').
Proof.
  intros Tr (x & Tw) R. destruct (vl_apart _ _ _ V) as (N1 & N2).
  assert (Ts : test_sig H reader ret (map v_arg []) = Ok MExact) by (unfold test_sig; cbn [f_ret f_args]; rewrite Tr; reflexivity).
  assert (Rs : overloads_resolve H acc ret (map v_arg []) = Ok (Chosen reader)).
  { unfold accessors. apply (resolve_first _ _ _ _ _ _ Ts); [discriminate|]. intros f' I. destruct (g_const g); [destruct I|]. destruct I as [<-|[]].
    apply (arity_none H writer ret _ x Tw). discriminate. }
  rewrite (moverloads_chosen B n E H m st acc ret [] reader MExact [] st m Rs Ts); [|discriminate|reflexivity|apply ctors_none].
  cbn [f_code]. rewrite reader_body. cbn [var_body]. rewrite (get_read _ _ _ R). cbn [bind].
  apply finish_new; auto. rewrite (vl_cpp _ _ _ V). apply orb_true_r.
Qed.

Lemma write_grade v : v_type v = T -> isConvertibleTo H (v_arg v) (Arg T LValue true) = Ok (same_grade (v_arg v) (Arg T LValue true)) /\
  same_grade (v_arg v) (Arg T LValue true) <> MNone.
Proof.
  intros Tv. unfold v_type in Tv. destruct (v_arg v) as [X r c]. cbn [a_type] in Tv. subst X. split.
  - apply same_type_grade; auto. exact (vl_valid _ _ _ V). exact (vl_conv _ _ _ V).
  - destruct r, c; discriminate.
Qed.
Lemma writer_test v ret x : v_type v = T -> testReturn H ret (Arg (h_void H) Copy false) = Ok x -> x <> MNone ->
  exists y, test_sig H writer ret (map v_arg [v]) = Ok y /\ y <> MNone.
Proof.
  intros Tv Tr Nx. destruct (write_grade v Tv) as (G & Ng). unfold test_sig. cbn [f_ret f_args map]. rewrite Tr. cbn [bind].
  unfold testArguments. cbn [length Nat.eqb negb testArguments_loop]. rewrite G. cbn [bind].
  destruct (same_grade (v_arg v) (Arg T LValue true)) eqn:Q; [congruence| |]; destruct x; try congruence; cbn; eexists; (split; [reflexivity|discriminate]).
Qed.
Lemma write_acc n m st ret x v p : g_const g = false -> testReturn H ret (Arg T Copy false) = Ok MExact \/ a_type ret = h_void H ->
  testReturn H ret (Arg (h_void H) Copy false) = Ok x -> x <> MNone -> v_type v = T ->
  read m (v_addr v) = Some p -> read m (g_at g) <> None ->
  exists log', moverloads_call B (S n) E H m st acc ret [v] = Ok (void_value H, write m (g_at g) p, St (st_next st) log').
Proof.
  intros C Tr Tw Nx Tv R Rg. destruct (vl_apart _ _ _ V) as (N1 & N2). destruct (writer_test v ret x Tv Tw Nx) as (y & Ts & Ny).
  assert (Rs : overloads_resolve H acc ret (map v_arg [v]) = Ok (Chosen writer)).
  { unfold accessors. rewrite C. apply (resolve_last H [reader] writer ret _ y); auto. intros f' [<-|[]].
    destruct Tr as [Tr|Tr]; [apply (arity_none H reader ret _ _ Tr); discriminate|].
    apply (arity_none H reader ret _ MExact); [|discriminate]. cbn [f_ret]. unfold testReturn. rewrite Tr, Nat.eqb_refl. reflexivity. }
  assert (Ps : pass_all (S n) E H st [v] (f_args writer) = Ok ([PRef (v_addr v)], st)).
  { cbn [f_args pass_all]. rewrite (pass_cref n E H st v T W (vl_valid _ _ _ V) N2 Tv). reflexivity. }
  rewrite (moverloads_chosen B (S n) E H m st acc ret [v] writer y _ st m Rs Ts Ny Ps (ctors_none _ _)).
  cbn [f_code]. rewrite writer_body. cbn [var_body]. rewrite (get_read _ _ _ R). cbn [bind].
  unfold get. destruct (read m (g_at g)) as [q|] eqn:Q; [|congruence]. cbn [bind]. now apply finish_void.
Qed.
Lemma write_refused n m st ret x y vs : testReturn H ret (Arg T Copy false) = Ok x -> testReturn H ret (Arg (h_void H) Copy false) = Ok y ->
  vs <> [] -> (g_const g = false -> forall v, vs = [v] -> isConvertibleTo H (v_arg v) (Arg T LValue true) = Ok MNone) ->
  moverloads_call B n E H m st acc ret vs = Abort.
Proof.
  intros Tr Tw Nv Hn. unfold moverloads_call. rewrite (resolve_none H acc); [reflexivity|]. intros f [<-|I].
  - apply (arity_none H reader ret _ _ Tr). destruct vs; [congruence|discriminate].
  - destruct (g_const g); [destruct I|]. destruct I as [<-|[]]. destruct vs as [|v [|v' vs]]; [congruence| |apply (arity_none H writer ret _ _ Tw); discriminate].
    unfold test_sig. cbn [f_ret f_args map]. rewrite Tw. cbn [bind]. unfold testArguments. cbn [length Nat.eqb negb testArguments_loop].
    rewrite (Hn eq_refl v eq_refl). cbn. now destruct y.
Qed.
End Accessors.

(* the name of a variable leads to its accessors *)
Lemma name_found H gs S k g : reflected H gs S -> nth_error gs k = Some g ->
  exists S', sfunction S 0 (qname (g_id g)) = Ok (S', accessors H g (2 * k)) /\ reflected H gs S' /\
    (forall x d os, vfn S' x d os <-> vfn S x d os) /\ (forall x d, vtype S' x d <-> vtype S x d) /\ (forall x, vscope S' x <-> vscope S x).
Proof.
  intros [W C F] N. pose proof (C g (nth_error_In _ _ N)) as Cg. unfold g_id in *.
  assert (Ln : 1 < Datatypes.S (length (qname (g_path g ++ [g_name g])))).
  { assert (Q : qname (g_path g ++ [g_name g]) <> []) by (apply qname_nonempty; [now destruct (g_path g)|exact Cg]).
    destruct (qname (g_path g ++ [g_name g])); [congruence|cbn; lia]. }
  destruct (sfunction_views S _ (g_path g) (g_name g) 0 [] _ (FSplits_qname _ _ Cg) W eq_refl Ln) as (A & _).
  destruct (A _ (F k g N)) as (S' & Es & W' & _ & Vs & Vt & Vf). exists S'. split; [exact Es|]. split; [|auto].
  constructor; auto. intros k' g' N'. apply Vf. auto.
Qed.

(* operations that leave the names alone *)
Lemma step_vfn S o S' x d os : wf_scopes S -> wop_ok o -> scope_step S (wop_op o) = Ok S' ->
  (forall H cs c f, o = WFunction H cs c f -> cs ++ [c] <> x ++ [d]) -> vfn S x d os -> vfn S' x d os.
Proof.
  intros W Ho E L Hv. assert (R0 : walk S 0 [] = Some 0) by reflexivity.
  destruct o as [cs|cs c|H cs c f|load cs c]; cbn [wop_op scope_step wop_ok] in *.
  - destruct Ho as (N & F). apply bind_Ok in E as ((S1 & p1) & E1 & E). injection E as ->.
    destruct (scope_views (qname cs) cs S 0 [] (Splits_qname _ N F) W R0) as (S2 & p2 & E2 & _ & _ & _ & V & T & Fn).
    rewrite E2 in E1. injection E1 as -> _. now apply Fn.
  - assert (N : cs ++ [c] <> []) by (destruct cs; discriminate).
    destruct (addType_views _ _ _ (Splits_qname _ N Ho) S 0 [] W R0 (Datatypes.S (length (qname (cs ++ [c]))))) as [(_ & A)|(_ & S2 & A & _ & _ & V & T & Fn)];
      [lia| |]; unfold addType in E; rewrite E in A; [discriminate|]. injection A as ->. now apply Fn.
  - assert (N : qname (cs ++ [c]) <> []) by (apply qname_nonempty; auto; destruct cs; discriminate).
    assert (Ln : 1 < Datatypes.S (length (qname (cs ++ [c])))) by (destruct (qname (cs ++ [c])); [congruence|cbn; lia]).
    destruct (saddFunction_views H f _ cs c S 0 [] _ (FSplits_qname _ _ Ho) W R0 Ln) as (os0 & A0 & [(os1 & S2 & Eo & A & _ & _ & V & T & Fn)|(_ & B)]).
    2: { exfalso. exact (B _ E). }
    unfold saddFunction in E. rewrite E in A. injection A as <-. cbn [app] in Fn. apply Fn. left. split; auto.
    specialize (L _ _ _ _ eq_refl). destruct (list_eq_dec str_dec x cs) as [->|]; auto. right. intros ->. now apply L.
  - assert (N : cs ++ [c] <> []) by (destruct cs; discriminate).
    apply bind_Ok in E as ((S1 & ty) & E1 & E). injection E as ->.
    assert (NT : ~ through_type S [] cs).
    { intro TT. exact (stype_through load S W _ _ _ (Splits_qname _ N Ho) 0 [] R0 _ (Nat.lt_succ_diag_r _) TT _ E1). }
    destruct (stype_views load S W _ _ _ (Splits_qname _ N Ho) 0 [] R0 _ (Nat.lt_succ_diag_r _) (Forall_nil _) Ho NT) as (P & Q).
    assert (V : vtype S cs c).
    { destruct (vtype_dec S cs c) as [V|V]; auto. unfold stype in E1. rewrite (P V) in E1. discriminate. }
    destruct (Q V) as (p & s & Ew & Es & cd & Ec & Hc). cbn [app] in Ew, Hc. unfold stype in E1.
    destruct cd as [ty0|]; rewrite Hc in E1; [injection E1 as <- <-; exact Hv|].
    apply bind_Ok in E1 as (t0 & El & E1). injection E1 as <- <-.
    apply (supd_vfn S p s (set_types s (aset c (Some t0) (s_types s))) cs W Es Ew eq_refl). destruct (list_eq_dec str_dec x cs) as [->|Nx]; [|intuition congruence].
    rewrite (vfn_at _ _ _ _ _ _ Ew Es) in Hv. cbn. intuition congruence.
Qed.
Lemma step_reflected H gs S o S' : reflected H gs S -> wop_ok o -> leaves gs o -> scope_step S (wop_op o) = Ok S' -> reflected H gs S'.
Proof.
  intros [W C F] Ho L E. constructor; auto; [eapply scope_step_wf; eauto|]. intros k g N. apply (step_vfn S o S' _ _ _ W Ho E); auto.
  intros H' cs c f Eo. apply (L H' cs c f g Eo). now apply nth_error_In in N.
Qed.
