(* ProofOps.v - typed calls follow the untyped ones (C73). *)
From Coq Require String.
Import String.StringSyntax.
From Verif Require Import Base ModelCore SpecCore ProofCore ModelValue SpecValue ProofValue ProofMatch ModelPlumb SpecPlumb ProofPlumb2 ProofPlumb3
  ModelCont SpecCont ProofCont ModelPtr ModelOps SpecOps.
Local Open Scope outcome_scope.

Lemma mtype_call_for B n E H m st T name vs : mtype_call B n E H m st T name vs = mcall_for B n E H m st T name (ret_value H) vs.
Proof. reflexivity. Qed.

Lemma test_returns H f ret ret' args : testReturn H ret (f_ret f) = testReturn H ret' (f_ret f) -> test_sig H f ret args = test_sig H f ret' args.
Proof. intro Q. unfold test_sig. now rewrite Q. Qed.
Lemma resolve_returns H os ret ret' args : (forall f, In f os -> testReturn H ret (f_ret f) = testReturn H ret' (f_ret f)) ->
  overloads_resolve H os ret args = overloads_resolve H os ret' args.
Proof.
  intro Q. unfold overloads_resolve. enough (G : forall best amb, resolve_loop H os ret args best amb = resolve_loop H os ret' args best amb) by now rewrite G.
  induction os as [|f os IH]; intros best amb; [reflexivity|]. cbn [resolve_loop]. rewrite (test_returns H f ret ret' args) by (apply Q; now left).
  assert (IH' : forall best amb, resolve_loop H os ret args best amb = resolve_loop H os ret' args best amb) by (apply IH; intros g I; apply Q; now right).
  destruct (test_sig H f ret' args); cbn [bind]; auto. now rewrite !IH'.
Qed.
Lemma resolve_in H os ret args f : overloads_resolve H os ret args = Ok (Chosen f) -> In f os.
Proof.
  unfold overloads_resolve. enough (G : forall best amb f amb', resolve_loop H os ret args best amb = Ok (Some f, amb') -> best = Some f \/ In f os).
  { destruct (resolve_loop H os ret args None false) as [[[g|] amb]| | | |] eqn:L; cbn [bind]; try discriminate. destruct amb; [discriminate|].
    intros [= <-]. destruct (G _ _ _ _ L) as [Q|Q]; [discriminate|exact Q]. }
  induction os as [|g os IH]; intros best amb h amb'; cbn [resolve_loop].
  - intros [= -> ->]. now left.
  - destruct (test_sig H g ret args) as [x| | | |]; cbn [bind]; try discriminate.
    destruct (grade_eqb x MNone). { intro L. apply IH in L as [L|L]; auto. right. now right. }
    destruct (_ && _). { intro L. apply IH in L as [L|L]; auto. right. now right. }
    destruct (grade_eqb x MExact). { intros [= <- _]. right. now left. }
    intro L. apply IH in L as [[= ->]|L]; right; [now left|now right].
Qed.
Lemma for_returns B n E H m st T name ret ret' vs os : function H T name = Ok os ->
  (forall f, In f os -> testReturn H ret (f_ret f) = testReturn H ret' (f_ret f)) ->
  mcall_for B n E H m st T name ret vs = mcall_for B n E H m st T name ret' vs.
Proof.
  intros Fo Q. unfold mcall_for. rewrite Fo. cbn [bind]. rewrite (resolve_returns H os ret ret' _ Q).
  destruct (overloads_resolve H os ret' (map v_arg vs)) as [[f| |]| | | |] eqn:R; cbn [bind]; auto.
  rewrite (test_returns H f ret ret'); auto. apply Q. eapply resolve_in; eauto.
Qed.

Lemma fits_exact E H have want : wf_heap H -> h_value H <> h_void H -> a_ref have <> RValue ->
  fits H have want -> askable E H want -> testReturn H want have = Ok MExact.
Proof.
  intros W NV Nr F A. unfold testReturn. destruct F as [F|(Et & F)].
  { rewrite F, Nat.eqb_refl. reflexivity. }
  destruct A as [A|(Nval & V & NC & _)]. { rewrite A, Nat.eqb_refl. reflexivity. }
  destruct (Nat.eqb_spec (a_type want) (h_void H)) as [Q|Q]; [reflexivity|]. rewrite (nat_eqb_neq (a_type have) (h_void H)) by (rewrite Et; exact Q).
  destruct have as [X r c], want as [X' r' c']. cbn [a_type a_ref a_const] in *. subst X'. rewrite (same_type_grade H X r c r' c') by auto. cbn [bind].
  destruct r'; try contradiction; cbn [a_ref] in *.
  - subst c'. destruct r, c; try congruence; reflexivity.
  - destruct F as (-> & [->| ->]); [destruct c|destruct c']; reflexivity.
Qed.

Section Typed.
Context (B : body) (n : nat) (E : cpp) (H : heap) (m : mem) (st : state) (T : tptr) (name : str) (os : overloads) (want : argument) (vs : list value).
Context (W : wf_heap H) (NV : h_value H <> h_void H) (Fo : function H T name = Ok os) (A : askable E H want).
Context (R : forall f, In f os -> returns H f want).

Lemma typed_is nn : mtype_call_ret B nn E H m st T name want vs =
  (do (x, st1) <- mtype_call B nn E H m st T name vs; let '(w, m1) := x in mret_cast nn E H m1 st1 w want).
Proof.
  unfold mtype_call_ret. rewrite mtype_call_for. rewrite (for_returns B nn E H m st T name want (ret_value H) vs os Fo); [reflexivity|].
  intros f I. destruct (R f I) as (R1 & R2 & R3). rewrite ret_any by auto. eapply fits_exact; eauto.
Qed.

Lemma call_result nn w m1 st1 : mtype_call B nn E H m st T name vs = Ok (w, m1, st1) -> exists f, In f os /\
  (a_type (f_ret f) <> h_void H -> v_type w = a_type (f_ret f) /\ (a_ref (f_ret f) = LValue -> v_arg w = f_ret f)).
Proof.
  unfold mtype_call. rewrite Fo. cbn [bind]. destruct (overloads_resolve H os (ret_value H) (map v_arg vs)) as [[f| |]| | | |] eqn:Rs; cbn [bind]; try discriminate.
  destruct (test_sig H f (ret_value H) (map v_arg vs)) as [g| | | |]; cbn [bind]; try discriminate. destruct (grade_eqb g MNone); [discriminate|].
  destruct (pass_all nn E H st vs (f_args f)) as [[qs st2]| | | |]; cbn [bind]; try discriminate.
  destruct (run_ctors _ _ _) as [m2| | | |]; cbn [bind]; try discriminate.
  destruct (B (f_code f) qs m2 (st_next st2)) as [[[m3 n3] res]| | | |]; cbn [bind]; try discriminate.
  destruct (wrap_ret _ _ _ _ _) as [[w' st3]| | | |] eqn:Wr; cbn [bind]; try discriminate. intros [= <- <- <-].
  pose proof (resolve_in _ _ _ _ _ Rs) as I. exists f. split; [exact I|]. intro Nd.
  unfold wrap_ret in Wr. rewrite (nat_eqb_neq _ _ Nd), (nat_eqb_neq _ _ (proj1 (R f I))) in Wr.
  destruct (f_ret f) as [X r c] eqn:Ef. cbn [a_type a_ref a_const] in *. destruct r; cbn [ref_eqb] in Wr.
  - unfold make_value in Wr. cbn [a_ref ref_eqb negb] in Wr. destruct (storable _ _ _); [|discriminate]. injection Wr as <- <-. split; [reflexivity|discriminate].
  - injection Wr as <- <-. split; reflexivity.
  - exfalso. apply (proj1 (proj2 (R f I))). now rewrite Ef.
Qed.

Lemma typed_ok w m1 st1 : mtype_call B (S (S n)) E H m st T name vs = Ok (w, m1, st1) -> unborn m1 (st_next st1) ->
  (a_type want <> h_void H -> a_ref want = Copy -> exists d, item m1 (v_addr w) d) ->
  exists r m2 st2, mtype_call_ret B (S (S n)) E H m st T name want vs = Ok (r, m2, st2) /\ unborn m2 (st_next st2) /\ delivered H m1 w want r m2.
Proof.
  intros Ec U Hi. destruct (call_result _ _ _ _ Ec) as (f & I & Hw). destruct (R f I) as (R1 & R2 & R3).
  rewrite typed_is, Ec. cbn [bind]. unfold mret_cast, ret_cast, delivered.
  destruct (Nat.eqb_spec (a_type want) (h_void H)) as [Q|Q].
  { cbn [bind]. rewrite ctors_none. cbn [bind]. exists None, m1, st1. auto. }
  destruct R3 as [R3|(Et & R3)]; [contradiction|]. destruct A as [A'|(Nval & V & NC & P)]; [contradiction|].
  assert (Nd : a_type (f_ret f) <> h_void H) by now rewrite Et. destruct (Hw Nd) as (Tw & Hw'). clear Hw. rename Hw' into Hw. rewrite Et in Tw.
  destruct want as [X r c]. cbn [a_type a_ref a_const] in *. destruct r; [| |contradiction].
  - subst c. destruct (pass_index n E H st1 w X W NV V (P eq_refl) Tw) as (code & q & Ep & Qq). rewrite Ep. cbn [bind st_log].
    assert (Sk : skipn (length (st_log st1)) (st_log st1 ++ [(code, [q])]) = [(code, [q])]) by (rewrite skipn_app, skipn_all, Nat.sub_diag; reflexivity).
    rewrite Sk. clear Sk Ep. destruct (Hi Q eq_refl) as (d & Hd).
    assert (Hc : copy_of m1 (v_addr w) = Ok d).
    { unfold copy_of. destruct Hd as [(p & -> & ->)|(p & Rp & ->)]; [reflexivity|]. unfold get. rewrite Rp. cbn [bind].
      unfold read in Rp. destruct (m1 (fst (v_addr w))); try discriminate; reflexivity. }
    assert (Hr : run_ctors m1 (st_next st1) [(code, [q])] = Ok (mset m1 (st_next st1) d)).
    { destruct Qq as [->| ->]; cbn [run_ctors]; rewrite Hc; reflexivity. }
    rewrite Hr. cbn [bind]. eexists _, _, _. split; [reflexivity|]. split; [now apply unborn_mset|].
    exists (st_next st1). split; [reflexivity|]. split; [apply U; lia|]. rewrite mset_same. split; [exact Hd|]. intros y Ny. now apply mset_other.
  - destruct R3 as (Rl & R3). rewrite (pass_lref (S n) E H st1 w (Arg X LValue c)); auto; try (rewrite Tw; auto; constructor).
    + cbn [bind]. rewrite ctors_none. cbn [bind]. eexists _, _, _. split; [reflexivity|]. auto.
    + cbn [a_const]. intros ->. rewrite (Hw Rl). destruct R3 as [R3|R3]; [discriminate|]. auto.
Qed.
Lemma typed_fails nn : mtype_call B nn E H m st T name vs = Abort -> mtype_call_ret B nn E H m st T name want vs = Abort.
Proof. intro Q. rewrite typed_is, Q. reflexivity. Qed.
Lemma typed_ub nn : mtype_call B nn E H m st T name vs = UB -> mtype_call_ret B nn E H m st T name want vs = UB.
Proof. intro Q. rewrite typed_is, Q. reflexivity. Qed.
End Typed.

(* what cannot be asked for *)
Lemma for_none B n E H m st T name ret vs os : function H T name = Ok os -> (forall f, In f os -> exists g, test_sig H f ret (map v_arg vs) = Ok g) ->
  (forall f, In f os -> testReturn H ret (f_ret f) = Ok MNone) ->
  mtype_call_ret B n E H m st T name ret vs = Abort.
Proof.
  intros Fo G Q. unfold mtype_call_ret, mcall_for. rewrite Fo. cbn [bind].
  assert (Rs : overloads_resolve H os ret (map v_arg vs) = Ok NoOverload).
  { unfold overloads_resolve. enough (L : resolve_loop H os ret (map v_arg vs) None false = Ok (None, false)) by (rewrite L; reflexivity).
    clear Fo. induction os as [|f os IH]; [reflexivity|]. cbn [resolve_loop]. destruct (G f (or_introl eq_refl)) as (g & Eg). rewrite Eg. cbn [bind].
    assert (g = MNone) as ->. { unfold test_sig in Eg. rewrite Q in Eg by now left. cbn [bind] in Eg. destruct (testArguments _ _ _) as [a| | | |]; cbn [bind] in Eg; try discriminate. injection Eg as <-. now destruct a. }
    cbn [grade_eqb]. apply IH; intros; [apply G|apply Q]; now right. }
  rewrite Rs. reflexivity.
Qed.

(* ----- the operators of the library's types ----- *)
Lemma operator_prefix name : In name value_operators -> firstn 8 name = lit "operator".
Proof. intro I. cbn -[lit firstn] in I. repeat (destruct I as [<-|I]; [reflexivity|]). destruct I. Qed.
Lemma operator_not_assign name : In name value_operators -> name <> lit "operator=".
Proof. intro I. cbn -[lit] in I. repeat (destruct I as [<-|I]; [discriminate|]). destruct I. Qed.
Lemma fns_plumbing name id T k b : In name value_operators -> type_name id -> fns_of name (plumbing id T k b) = [].
Proof.
  intros I TN. apply fns_of_none. intros ret args code J. apply plumbing_names in J as [->| ->].
  - apply TN. now apply operator_prefix.
  - now apply operator_not_assign in I.
Qed.
Lemma fns_ctor name id ret args code rs : In name value_operators -> type_name id -> fns_of name (RFn id ret args code :: rs) = fns_of name rs.
Proof.
  intros I TN. unfold fns_of. cbn [flat_map]. destruct (str_eqb name id) eqn:Q; [|reflexivity]. apply str_eqb_eq in Q as <-. exfalso. apply TN. now apply operator_prefix.
Qed.
Lemma fns_pointer name kd p rs : fns_of name (RPointer kd p :: rs) = fns_of name rs.
Proof. reflexivity. Qed.
Definition no_fns (l : overloads) : bool := match l with [] => true | _ => false end.
Lemma decided ops rs : forallb (fun name => Bool.eqb (existsb (str_eqb name) ops) (negb (no_fns (fns_of name rs)))) value_operators = true ->
  forall name, In name value_operators -> (In name ops /\ fns_of name rs <> []) \/ (~ In name ops /\ fns_of name rs = []).
Proof.
  intros F name I. rewrite forallb_forall in F. specialize (F name I). apply Bool.eqb_prop in F. destruct (fns_of name rs) as [|f l]; cbn in F.
  - right. split; [|reflexivity]. intro J. assert (Q : existsb (str_eqb name) ops = true) by (apply existsb_exists; exists name; split; [exact J|apply str_eqb_refl]). congruence.
  - left. split; [|discriminate]. apply existsb_exists in F as (x & J & Q). apply str_eqb_eq in Q as ->. exact J.
Qed.
Lemma library_fns H T id ops : wf_heap H -> type_name id -> library H T id ops -> exists rs, carries H T id rs /\
  forall name, In name value_operators -> (In name ops /\ fns_of name rs <> []) \/ (~ In name ops /\ fns_of name rs = []).
Proof.
  intros W TN L. destruct L as [PT R n k b C|PT Z k b C|PT k b C|V Z vd k b C|K V KV Z k b C|P B k b C|P PP B vd k b C|P PP B vd k b C];
    (eexists; split; [exact C|]); intros name I.
  - unfold number. rewrite fns_of_app, fns_plumbing by auto. cbn [app]. revert name I. apply decided. destruct n; vm_compute; reflexivity.
  - unfold stdString. rewrite fns_of_app, fns_plumbing by auto. cbn [app]. revert name I. apply decided. vm_compute; reflexivity.
  - rewrite fns_of_app, fns_plumbing by auto. cbn [app]. revert name I. apply decided. destruct k as [[] [] [] ? ?]; vm_compute; reflexivity.
  - unfold stdVector. rewrite fns_of_app, fns_plumbing by auto. cbn [app]. revert name I. apply decided. vm_compute; reflexivity.
  - unfold stdMap. rewrite fns_of_app, fns_plumbing by auto. cbn [app]. revert name I. apply decided. vm_compute; reflexivity.
  - unfold rawPointer. rewrite fns_of_app, fns_plumbing by auto. cbn [app]. revert name I. apply decided. vm_compute; reflexivity.
  - unfold sharedPtr, smartPtr. rewrite fns_pointer, !fns_of_app, fns_plumbing, fns_ctor by auto. cbn [app]. rewrite <- fns_of_app. revert name I. apply decided. vm_compute; reflexivity.
  - unfold uniquePtr, smartPtr. rewrite fns_pointer, !fns_of_app, fns_plumbing, fns_ctor by auto. cbn [app]. rewrite <- fns_of_app. revert name I. apply decided. vm_compute; reflexivity.
Qed.
Lemma library_has H T id ops name : wf_heap H -> type_name id -> library H T id ops -> In name value_operators ->
  (In name ops /\ hasFunction H T name = Ok true) \/ (~ In name ops /\ hasFunction H T name = Ok false /\ function H T name = Abort).
Proof.
  intros W TN L I. destruct (library_fns H T id ops W TN L) as (rs & C & D). destruct (carries_function H T id rs name C W) as (F1 & F2).
  destruct (D name I) as [(J & Q)|(J & Q)]; [left|right]; split; auto; [apply F1|split; apply F2]; auto.
Qed.
