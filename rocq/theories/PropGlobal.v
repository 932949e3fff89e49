(* PropGlobal.v - C81: reflected global variables and functions. *)
From Coq Require String.
Import String.StringSyntax.
From Coq Require Import Relations.
From Verif Require Import Base ModelCore SpecCore ProofCore ProofMatch ExCore PropCore ModelScope SpecScope ProofScope1 ProofScope2 ProofScope3 ProofScope4 PropScope
  ModelValue SpecValue ProofValue PropValue ProofPlumb2 ModelCall SpecCall PropCall ModelCont SpecCont ProofCont ProofCont2 ModelPtr SpecPtr ProofPtr2
  SpecPlain ProofPlain ModelOps SpecOps ProofOps ModelGlobal SpecGlobal ProofGlobal.
Local Open Scope outcome_scope.

(* A variable whose name is not yet a function can always be reflected, at any point
   of a program's life: its name then means a reader and, unless it is const, a
   writer; no other function and no type is touched. *)
Theorem c81_registered : forall H ops Sc inside g code, scope_run sinit ops = Ok Sc ->
  Forall component (g_id g) -> (forall os, ~ vfn Sc (g_path g) (g_name g) os) ->
  exists Sc', reflectGlobalVar H Sc inside (qname (g_id g)) (g_type g) (g_const g) code = Ok Sc' /\ wf_scopes Sc' /\
    vfn Sc' (g_path g) (g_name g) (accessors H g code) /\
    (forall x d os, x ++ [d] <> g_id g -> (vfn Sc' x d os <-> vfn Sc x d os)) /\
    (forall x d, vtype Sc' x d <-> vtype Sc x d).
Proof.
  intros H ops Sc sc g code E F N. pose proof (scope_run_wf _ _ _ sinit_wf E) as W. unfold g_id in *.
  destruct (var_registered H Sc sc (g_path g) (g_name g) (g_type g) (g_const g) code W F N) as (S' & E' & W' & V & O & T & _).
  exists S'. split; [exact E'|]. split; [exact W'|]. split; [specialize (V (g_at g)); now destruct g|]. split; [|exact T].
  intros x d os D. apply O. destruct (list_eq_dec str_dec x (g_path g)) as [->|]; auto. right. intros ->. now apply D.
Qed.
Print Assumptions c81_registered.

(* and so can all the variables of a program, whose names are distinct *)
Theorem c81_all_registered : forall H ops Sc inside gs, scope_run sinit ops = Ok Sc ->
  (forall g, In g gs -> Forall component (g_id g) /\ forall os, ~ vfn Sc (g_path g) (g_name g) os) ->
  NoDup (map g_id gs) ->
  exists Sc', reflect_all H Sc 0 inside gs = Ok Sc' /\ reflected H gs Sc'.
Proof.
  intros H ops Sc sc gs E. pose proof (scope_run_wf _ _ _ sinit_wf E) as W. clear E. intros Hg ND.
  enough (G : forall k, exists Sc', reflect_all H Sc k sc gs = Ok Sc' /\ wf_scopes Sc' /\
     (forall i g, nth_error gs i = Some g -> vfn Sc' (g_path g) (g_name g) (accessors H g (2 * (k + i)))) /\
     (forall x d os, (forall g, In g gs -> x ++ [d] <> g_id g) -> (vfn Sc' x d os <-> vfn Sc x d os))).
  { destruct (G 0) as (S' & E' & W' & V & _). exists S'. split; [exact E'|]. constructor; auto. intros g I. now apply Hg. }
  revert Sc W Hg. induction gs as [|g gs IH]; intros Sc W Hg k.
  { exists Sc. split; [reflexivity|]. split; [exact W|]. split; [now intros [|i]|reflexivity]. }
  cbn [reflect_all]. destruct (Hg g (or_introl eq_refl)) as (Fg & Ng).
  destruct (var_registered H Sc (sc k) (g_path g) (g_name g) (g_type g) (g_const g) (2 * k) W Fg Ng) as (S1 & E1 & W1 & V1 & O1 & _).
  unfold g_id at 1. rewrite E1. cbn [bind]. inversion ND as [|? ? Nin ND']; subst.
  assert (Apart : forall x d, x ++ [d] <> g_id g -> x <> g_path g \/ d <> g_name g).
  { intros x d D. destruct (list_eq_dec str_dec x (g_path g)) as [->|]; auto. right. intros ->. now apply D. }
  assert (D : forall g', In g' gs -> g_id g' <> g_id g).
  { intros g' I Q. apply Nin. rewrite <- Q. now apply in_map. }
  destruct (IH ND' S1 W1) with (k := S k) as (S2 & E2 & W2 & V2 & O2).
  { intros g' I. destruct (Hg g' (or_intror I)) as (F' & N'). split; [exact F'|]. intros os Q. apply (N' os). apply O1; auto. now apply Apart, D. }
  exists S2. split; [exact E2|]. split; [exact W2|]. split.
  - intros [|i] g' N; cbn [nth_error] in N.
    + injection N as <-. rewrite Nat.add_0_r. apply O2; [intros g' I Q; apply (D g' I); now rewrite <- Q|].
      specialize (V1 (g_at g)). now destruct g.
    + replace (k + S i) with (S k + i) by lia. auto.
  - intros x d os Hx. rewrite O2 by (intros g' I; apply Hx; now right). apply O1. apply Apart. apply Hx. now left.
Qed.
Print Assumptions c81_all_registered.

(* Reflecting a variable a second time, or under the name of a function without
   arguments that returns its type, is an error. *)
Theorem c81_twice : forall H gs Sc inside k g T is_const code, wf_heap H -> reflected H gs Sc -> nth_error gs k = Some g ->
  valid H (g_type g) -> T = g_type g ->
  forall Sc', reflectGlobalVar H Sc inside (qname (g_id g)) T is_const code <> Ok Sc'.
Proof.
  intros H gs Sc sc k g T ic code W [Ws C F] N V -> Sc' Q. unfold reflectGlobalVar in Q.
  apply bind_Ok in Q as (S1 & Q & _). revert S1 Q. apply (add_raw_no H Sc (g_path g) (g_name g) _ _ _ (accessors H g (2 * k)) Ws).
  - apply C. now apply nth_error_In in N.
  - left. now apply F.
  - intros os1 Q. unfold overloads_add, accessors in Q. cbn [add_check] in Q. unfold test_fn in Q. cbn [f_ret f_args] in Q.
    assert (R : testReturn H (Arg (g_type g) Copy false) (Arg (g_type g) Copy false) = Ok MExact).
    { unfold testReturn. cbn [a_type a_ref a_const]. destruct (Nat.eqb (g_type g) (h_void H)); [reflexivity|].
      replace (isConvertibleTo H (Arg (g_type g) Copy false) (Arg (g_type g) Copy false)) with (Ok MExact); [reflexivity|].
      symmetry. apply c04_decision_table; auto. now apply G_same. }
    rewrite R in Q. discriminate.
Qed.
Print Assumptions c81_twice.

(* Other scopes, types and functions can come and go. *)
Theorem c81_stays : forall H gs Sc o Sc', reflected H gs Sc -> wop_ok o -> leaves gs o ->
  scope_step Sc (wop_op o) = Ok Sc' -> reflected H gs Sc'.
Proof. intros. eapply step_reflected; eauto. Qed.
Print Assumptions c81_stays.

Section Calls.
Context (E : cpp) (H : heap) (gs : list global) (rest : body) (W : wf_heap H) (NV : h_value H <> h_void H).
Lemma at_vars k g : nth_error gs k = Some g -> nth_error (map g_at gs) k = Some (g_at g).
Proof. intros N. now rewrite nth_error_map, N. Qed.
Lemma want_value_T T : T <> h_value H -> testReturn H (ret_value H) (Arg T Copy false) = Ok MExact.
Proof. intros N. now apply ret_any. Qed.
End Calls.

(* Reading: calling the name without arguments gives a new object of the caller's own
   with the value the variable has at that moment; nothing that existed changes. *)
Theorem c81_read : forall E H gs rest Sc k g n m st p, wf_heap H -> h_value H <> h_void H ->
  reflected H gs Sc -> nth_error gs k = Some g -> value_type E H (g_type g) ->
  unborn m (st_next st) -> read m (g_at g) = Some p ->
  exists Sc' w m' st', mscope_call (globals_body (map g_at gs) rest) (S n) E H m st Sc 0 (qname (g_id g)) [] = Ok (Sc', (w, m', st')) /\
    reflected H gs Sc' /\ unborn m' (st_next st') /\
    owns_number (g_type g) m' w p /\ m (fst (v_addr w)) = DNone /\ (forall y, m y <> DNone -> m' y = m y).
Proof.
  intros E H gs rest Sc k g n m st p W NV R N V U Rd. destruct (vl_apart _ _ _ V) as (N1 & N2).
  destruct (name_found H gs Sc k g R N) as (Sc' & Es & R' & _).
  destruct (read_acc E H (map g_at gs) rest g k V (at_vars _ _ _ N) (S n) m st (ret_value H) p) as (log' & Ec); auto.
  { now apply ret_any. }
  { exists MExact. apply ret_any; cbn; congruence. }
  unfold mscope_call. rewrite Es. cbn [bind]. rewrite Ec. cbn [bind]. eexists _, _, _, _. split; [reflexivity|].
  split; [exact R'|]. split; [now apply unborn_mset|]. split; [|split].
  - repeat split; auto. cbn. apply mset_same.
  - cbn. apply U. lia.
  - intros y Hy. apply mset_other. intros ->. apply Hy, U. lia.
Qed.
Print Assumptions c81_read.

(* Writing: calling it with one object of the type, wherever it lives and however the
   handle refers to it, makes the variable equal to it; nothing else changes. *)
Theorem c81_write : forall E H gs rest Sc k g n m st v p, wf_heap H -> h_value H <> h_void H ->
  reflected H gs Sc -> nth_error gs k = Some g -> value_type E H (g_type g) -> g_const g = false ->
  unborn m (st_next st) -> v_type v = g_type g -> read m (v_addr v) = Some p -> read m (g_at g) <> None ->
  exists Sc' w m' st', mscope_call (globals_body (map g_at gs) rest) (S n) E H m st Sc 0 (qname (g_id g)) [v] = Ok (Sc', (w, m', st')) /\
    reflected H gs Sc' /\ unborn m' (st_next st') /\
    v_type w = h_void H /\ read m' (g_at g) = Some p /\
    (forall a, a <> g_at g -> read m' a = read m a) /\ (forall y, y <> fst (g_at g) -> m' y = m y).
Proof.
  intros E H gs rest Sc k g n m st v p W NV R N V C U Tv Rv Rg. destruct (vl_apart _ _ _ V) as (N1 & N2).
  destruct (name_found H gs Sc k g R N) as (Sc' & Es & R' & _).
  destruct (write_acc E H W (map g_at gs) rest g k V (at_vars _ _ _ N) n m st (ret_value H) MExact v p) as (log' & Ec); auto.
  { left. now apply ret_any. }
  { apply ret_any; cbn; congruence. }
  { discriminate. }
  unfold mscope_call. rewrite Es. cbn [bind]. rewrite Ec. cbn [bind]. eexists _, _, _, _. split; [reflexivity|].
  split; [exact R'|]. split; [now apply write_unborn|]. split; [reflexivity|]. split; [|split].
  - rewrite read_write by auto. unfold put. now rewrite same_refl.
  - intros a Na. rewrite read_write by auto. unfold put. now rewrite same_neq.
  - intros y Ny. now apply write_frame.
Qed.
Print Assumptions c81_write.

(* Refused: writing a const variable, writing something that does not convert to the
   type, more than one argument.  Nothing happens. *)
Theorem c81_refused : forall E H gs rest Sc k g n m st vs, wf_heap H -> h_value H <> h_void H ->
  reflected H gs Sc -> nth_error gs k = Some g -> value_type E H (g_type g) -> vs <> [] ->
  Forall (fun v => valid H (v_type v)) vs ->
  (g_const g = true \/ length vs <> 1 \/
   exists v, vs = [v] /\ v_type v <> h_value H /\ ~ Subtype H (v_type v) (g_type g) /\ ~ has_user_conversion H (v_type v) (g_type g)) ->
  mscope_call (globals_body (map g_at gs) rest) n E H m st Sc 0 (qname (g_id g)) vs = Abort.
Proof.
  intros E H gs rest Sc k g n m st vs W NV R N V Nv Va D. destruct (vl_apart _ _ _ V) as (N1 & N2).
  destruct (name_found H gs Sc k g R N) as (Sc' & Es & R' & _). unfold mscope_call. rewrite Es. cbn [bind].
  rewrite (write_refused E H (map g_at gs) rest g k n m st (ret_value H) MExact MExact); auto; try (apply ret_any; cbn; congruence).
  intros C v ->. destruct D as [D|[D|(v' & [= <-] & Nval & Ns & Nc)]]; [congruence|now cbn in D|].
  inversion Va as [|? ? Vv _]; subst. apply c04_decision_table; auto; [exact (vl_valid _ _ _ V)|].
  apply G_illegal.
  - intro Q. apply Ns. unfold v_type. rewrite Q. apply Sub_refl.
  - intros [(Q & _)|(_ & Q)]; [now apply Nval|now apply N2].
  - exact Nc.
  - intros (_ & Q). now apply Ns.
Qed.
Print Assumptions c81_refused.

(* Asking for the C++ value: call<T>(name) gives the value, call<void>(name, v) writes. *)
Theorem c81_typed : forall E H gs rest Sc k g n m st p, wf_heap H -> h_value H <> h_void H ->
  reflected H gs Sc -> nth_error gs k = Some g -> value_type E H (g_type g) -> plumbed E H (g_type g) (g_type g) ->
  unborn m (st_next st) -> read m (g_at g) = Some p ->
  (exists Sc' o m' st', mscope_call_ret (globals_body (map g_at gs) rest) (S (S n)) E H m st Sc 0 (qname (g_id g)) (Arg (g_type g) Copy false) [] =
      Ok (Sc', (Some (PCopy (o, 0%N)), m', st')) /\ reflected H gs Sc' /\
      read m' (o, 0%N) = Some p /\ m o = DNone /\ forall y, m y <> DNone -> m' y = m y) /\
  (forall v q, g_const g = false -> v_type v = g_type g -> read m (v_addr v) = Some q ->
    exists Sc' m' st', mscope_call_ret (globals_body (map g_at gs) rest) (S (S n)) E H m st Sc 0 (qname (g_id g)) (Arg (h_void H) Copy false) [v] =
      Ok (Sc', (None, m', st')) /\ reflected H gs Sc' /\
      read m' (g_at g) = Some q /\ (forall a, a <> g_at g -> read m' a = read m a)).
Proof.
  intros E H gs rest Sc k g n m st p W NV R N V P U Rd. destruct (vl_apart _ _ _ V) as (N1 & N2).
  destruct (name_found H gs Sc k g R N) as (Sc' & Es & R' & _). split.
  - destruct (read_acc E H (map g_at gs) rest g k V (at_vars _ _ _ N) (S (S n)) m st (Arg (g_type g) Copy false) p) as (log' & Ec); auto.
    { unfold testReturn. cbn [a_type a_ref a_const]. rewrite (nat_eqb_neq _ _ N1).
      replace (isConvertibleTo H (Arg (g_type g) Copy false) (Arg (g_type g) Copy false)) with (Ok MExact); [reflexivity|].
      symmetry. apply c04_decision_table; auto; try exact (vl_valid _ _ _ V). now apply G_same. }
    { apply ret_of_void. }
    unfold mscope_call_ret. rewrite Es. cbn [bind]. rewrite Ec. cbn [bind]. unfold mret_cast, ret_cast. cbn [a_type].
    rewrite (nat_eqb_neq _ _ N1). set (w := Val _ _ _). set (m1 := mset m (st_next st) (DData p)). set (st1 := St _ _).
    destruct (pass_index n E H st1 w (g_type g) W NV (vl_valid _ _ _ V) P eq_refl) as (code & q & Ep & Qq). rewrite Ep. cbn [bind].
    assert (Rw : read m1 (v_addr w) = Some p) by apply read_fresh.
    pose proof (ctors_index m1 st1 code q w p Rw Qq) as Ci. cbn [st_log] in *. rewrite Ci. cbn [bind].
    eexists _, _, _, _. split; [reflexivity|]. split; [exact R'|]. split; [apply read_fresh|]. split; [apply U; unfold st1; cbn; lia|].
    intros y Hy. assert (y < st_next st) by exact (born _ _ _ U Hy). unfold m1, st1. cbn [st_next]. rewrite !mset_other by lia. reflexivity.
  - intros v q C Tv Rv.
    destruct (write_acc E H W (map g_at gs) rest g k V (at_vars _ _ _ N) (S n) m st (Arg (h_void H) Copy false) MExact v q) as (log' & Ec); auto.
    { unfold testReturn. cbn [a_type]. rewrite Nat.eqb_refl. reflexivity. }
    { discriminate. }
    { congruence. }
    unfold mscope_call_ret. rewrite Es. cbn [bind]. rewrite Ec. cbn [bind]. unfold mret_cast, ret_cast. cbn [a_type]. rewrite Nat.eqb_refl. cbn [bind].
    rewrite ctors_none. cbn [bind]. eexists _, _, _. split; [reflexivity|]. split; [exact R'|]. rewrite read_write by congruence. unfold put. rewrite same_refl.
    split; [reflexivity|]. intros a Na. rewrite read_write by congruence. unfold put. now rewrite same_neq.
Qed.
Print Assumptions c81_typed.

(* Histories: a client that reads and writes variables by name and objects in C++, in
   any order, while types, scopes and functions are added, and that keeps its own
   account of all values, is never wrong. *)
Theorem c81_history : forall E H gs rest w w', wf_heap H -> h_value H <> h_void H ->
  (forall g, In g gs -> value_type E H (g_type g)) -> gknows H gs w ->
  clos_refl_trans gworld (gstep E H gs rest) w w' -> gknows H gs w'.
Proof.
  intros E H gs rest w w' W NV VT K Hs. induction Hs as [w w' Hs|w|w1 w2 w3 H1 IH1 H2 IH2]; [|exact K|auto].
  destruct K as (U & R & Kn). destruct Hs as [m st Sc h k g p n w m' st' Sc' N Hp Ec|m st Sc h k g v p n w m' st' Sc' N C Tv Hv Hg Ec|m st Sc h a p Ha|m st Sc h a p Ra|m st Sc h p|m st Sc h o Sc' Ho L Es]; cbn [gw_mem gw_st gw_scopes gw_known] in *.
  - pose proof (VT g (nth_error_In _ _ N)) as V.
    destruct (c81_read E H gs rest Sc k g n m st p W NV R N V U (Kn _ _ Hp)) as (Sc2 & w2 & m2 & st2 & Ec2 & R2 & U2 & O2 & D2 & F2).
    rewrite Ec2 in Ec. injection Ec as -> -> -> ->. split; [exact U2|]. split; [exact R2|]. intros a q. cbn [gw_known gw_mem]. unfold put. destruct (same a (v_addr w)) eqn:Q.
    + apply same_spec in Q as ->. intros [= <-]. destruct O2 as (_ & _ & O3 & O4). unfold read. rewrite O4, O3. reflexivity.
    + intros Hq. specialize (Kn _ _ Hq). unfold read in *. rewrite F2; [exact Kn|]. intro Z. rewrite Z in Kn. discriminate.
  - pose proof (VT g (nth_error_In _ _ N)) as V.
    assert (Rg : read m (g_at g) <> None) by (destruct (h (g_at g)) as [q|] eqn:Q; [rewrite (Kn _ _ Q); discriminate|congruence]).
    destruct (c81_write E H gs rest Sc k g n m st v p W NV R N V C U Tv (Kn _ _ Hv) Rg) as (Sc2 & w2 & m2 & st2 & Ec2 & R2 & U2 & _ & Rw & F2 & _).
    rewrite Ec2 in Ec. injection Ec as -> -> -> ->. split; [exact U2|]. split; [exact R2|]. intros a q. cbn [gw_known gw_mem]. unfold put. destruct (same a (g_at g)) eqn:Q.
    + apply same_spec in Q as ->. intros [= <-]. exact Rw.
    + intros Hq. rewrite F2; auto. intros ->. now rewrite same_refl in Q.
  - assert (Ra : read m a <> None) by (destruct (h a) as [q|] eqn:Q; [rewrite (Kn _ _ Q); discriminate|congruence]).
    split; [now apply write_unborn|]. split; [exact R|]. intros c q. cbn [gw_known gw_mem]. rewrite read_write by auto. unfold put. destruct (same c a); auto.
  - split; [exact U|]. split; [exact R|]. intros c q. cbn [gw_known gw_mem]. unfold put. destruct (same c a) eqn:Q; auto. apply same_spec in Q as ->. congruence.
  - split; [now apply unborn_mset|]. split; [exact R|]. intros c q. cbn [gw_known gw_mem]. unfold put. destruct (same c (st_next st, 0%N)) eqn:Q.
    + apply same_spec in Q as ->. intros [= <-]. apply read_fresh.
    + intros Hq. apply read_mset; auto.
  - split; [exact U|]. split; [eapply step_reflected; eauto|]. exact Kn.
Qed.
Print Assumptions c81_history.

(* Global functions: reflecting one adds it to the overloads of its name, unless one of
   them is interchangeable with it. *)
Theorem c81_function_registered : forall H ops Sc inside x c ret args code os, scope_run sinit ops = Ok Sc ->
  Forall component (x ++ [c]) -> (vfn Sc x c os \/ (os = [] /\ forall os', ~ vfn Sc x c os')) ->
  (forall o, In o os -> exists g, test_fn H (Fn c ret args code) o = Ok g /\ g <> MExact) ->
  exists Sc', reflectGlobalFn H Sc inside (qname (x ++ [c])) ret args code = Ok Sc' /\ wf_scopes Sc' /\
    vfn Sc' x c (os ++ [Fn c ret args code]) /\
    (forall y d os', y ++ [d] <> x ++ [c] -> (vfn Sc' y d os' <-> vfn Sc y d os')) /\
    (forall y d, vtype Sc' y d <-> vtype Sc y d).
Proof.
  intros H ops Sc sc x c ret args code os E F Fo Hn. pose proof (scope_run_wf _ _ _ sinit_wf E) as W.
  destruct (add_raw_ok H Sc x c ret args code os _ W F Fo (c07_otherwise_appended H os _ Hn)) as (S' & E' & W' & V & O & T & _).
  exists S'. split; [exact E'|]. split; [exact W'|]. split; [exact V|]. split; [|exact T].
  intros y d os' D. apply O. destruct (list_eq_dec str_dec y x) as [->|]; auto. right. intros ->. now apply D.
Qed.
Print Assumptions c81_function_registered.

(* scope->call<Ret>(a::b::f, args...) finds the overloads of the name and makes the same
   call as on a type (C67): the best fit is called once on the very arguments. *)
Theorem c81_function_call : forall n E H st Sc x c asked cs os gs f,
  wf_heap H -> h_value H <> h_void H -> arg_valid H asked -> wf_scopes Sc -> Forall component (x ++ [c]) ->
  Forall (fun c => arg_valid H (carg_arg c)) cs ->
  vfn Sc x c os -> Forall (fn_valid H) os ->
  Forall2 (Fits H asked (map carg_arg cs)) os gs ->
  resolution_spec (List.combine os gs) (Chosen f) ->
  Forall2 (passable E H) cs (f_args f) -> returnable E H f -> result_ok E H (f_ret f) asked ->
  exists vs st1 qs st2 r st3 oq st4 Sc',
    CarriedAll st cs vs st1 /\ PassedAll H st1 vs (f_args f) qs st2 /\ Returned E H f qs st2 r st3 /\
    ((a_type asked = h_void H /\ oq = None /\ st4 = st3) \/
     (a_type asked <> h_void H /\ exists q', oq = Some q' /\ Passed H st3 r asked q' st4)) /\
    scope_call_ret (S (S n)) E H st Sc 0 (qname (x ++ [c])) asked cs = Ok (Sc', (oq, st4)) /\
    (forall y d os', vfn Sc' y d os' <-> vfn Sc y d os').
Proof.
  intros n E H st Sc x c asked cs os gs f W Hv Va Ws Fc Vc Vn Vo F R P Rt Ro.
  assert (Nq : qname (x ++ [c]) <> []) by (apply qname_nonempty; [now destruct x|exact Fc]).
  assert (Ln : 1 < S (length (qname (x ++ [c])))) by (destruct (qname (x ++ [c])); [congruence|cbn; lia]).
  destruct (proj1 (sfunction_views Sc _ x c 0 [] _ (FSplits_qname _ _ Fc) Ws eq_refl Ln) os Vn) as (Sc' & Es & _ & _ & _ & _ & Vf).
  pose proof (resolves H asked (map carg_arg cs) os gs _ W Va Vo (carried_valid _ _ Vc) F R) as Er.
  destruct (chosen_fits _ _ _ _ _ _ F R) as (If & g & Fg & Ng).
  assert (Vfn : fn_valid H f) by (rewrite Forall_forall in Vo; auto).
  apply Fits_test in Fg; auto; [|exact (carried_valid _ _ Vc)].
  destruct (c52_accepted_call_returns n E H st f asked cs g W Hv Vfn Va Vc P Rt Ro Fg Ng)
    as (vs & st1 & qs & st2 & r & st3 & oq & st4 & Ca & Pa & Re & Oq & Ec).
  exists vs, st1, qs, st2, r, st3, oq, st4, Sc'. split; [exact Ca|]. split; [exact Pa|]. split; [exact Re|]. split; [exact Oq|].
  split; [|exact Vf]. unfold scope_call_ret, sfunction. rewrite Es. cbn [bind]. unfold overloads_call_ret. rewrite Er. cbn [bind]. rewrite Ec. reflexivity.
Qed.
Print Assumptions c81_function_call.

(* and is an error when there is no such function *)
Theorem c81_function_missing : forall n E H st Sc x c asked cs, wf_scopes Sc -> Forall component (x ++ [c]) ->
  (forall os, ~ vfn Sc x c os) -> scope_call_ret n E H st Sc 0 (qname (x ++ [c])) asked cs = Abort.
Proof.
  intros n E H st Sc x c asked cs Ws Fc Nv.
  assert (Nq : qname (x ++ [c]) <> []) by (apply qname_nonempty; [now destruct x|exact Fc]).
  assert (Ln : 1 < S (length (qname (x ++ [c])))) by (destruct (qname (x ++ [c])); [congruence|cbn; lia]).
  pose proof (proj2 (sfunction_views Sc _ x c 0 [] _ (FSplits_qname _ _ Fc) Ws eq_refl Ln) Nv) as Es.
  unfold scope_call_ret, sfunction. rewrite Es. reflexivity.
Qed.
Print Assumptions c81_function_missing.

(* A call through the scope at path x0 is the call through the global scope by the full
   name: the same result, memory and log, or the same failure; the names stay. *)
Definition result {A} (o : outcome (sheap * A)) : outcome A := do (_, r) <- o; Ok r.
Lemma vfn_dec (S : sheap) x c : (exists os, vfn S x c os) \/ (forall os, ~ vfn S x c os).
Proof.
  destruct (walk S 0 x) as [p|] eqn:Ew; [|right; intros os (q & s & Eq & _); congruence].
  destruct (sget S p) as [s|] eqn:Es; [|right; intros os (q & s & Eq & Eq2 & _); congruence].
  destruct (afind c (s_fns s)) as [os|] eqn:Ef; [left; exists os, p, s; auto|].
  right. intros os (q & s' & Eq & Eq2 & Ef'). congruence.
Qed.
Lemma sfunction_inside (Z : sheap) (this : sptr) x0 y c : wf_scopes Z -> walk Z 0 x0 = Some this -> Forall component (x0 ++ y ++ [c]) ->
  (exists os S1 S2, sfunction Z this (qname (y ++ [c])) = Ok (S1, os) /\ sfunction Z 0 (qname (x0 ++ y ++ [c])) = Ok (S2, os) /\
     (forall x d os', vfn S1 x d os' <-> vfn Z x d os') /\ (forall x d os', vfn S2 x d os' <-> vfn Z x d os')) \/
  (sfunction Z this (qname (y ++ [c])) = Abort /\ sfunction Z 0 (qname (x0 ++ y ++ [c])) = Abort).
Proof.
  intros Ws Wk F. assert (F2 : Forall component (y ++ [c])) by (apply Forall_app in F; tauto).
  assert (Ln : forall z, Forall component (z ++ [c]) -> 1 < Datatypes.S (length (qname (z ++ [c])))).
  { intros z Fz. assert (Q : qname (z ++ [c]) <> []) by (apply qname_nonempty; [now destruct z|exact Fz]). destruct (qname (z ++ [c])); [congruence|cbn; lia]. }
  rewrite app_assoc in F |- *.
  destruct (sfunction_views Z _ y c this x0 _ (FSplits_qname _ _ F2) Ws Wk (Ln _ F2)) as (A1 & B1).
  destruct (sfunction_views Z _ (x0 ++ y) c 0 [] _ (FSplits_qname _ _ F) Ws eq_refl (Ln _ F)) as (A2 & B2). cbn [app] in A2, B2.
  destruct (vfn_dec Z (x0 ++ y) c) as [(os & V)|Nv].
  - left. destruct (A1 os V) as (S1 & E1 & _ & _ & _ & _ & V1). destruct (A2 os V) as (S2 & E2 & _ & _ & _ & _ & V2).
    exists os, S1, S2. auto.
  - right. auto.
Qed.
Theorem c81_inside : forall B n E H m st Sc this x0 y c, wf_scopes Sc -> walk Sc 0 x0 = Some this -> Forall component (x0 ++ y ++ [c]) ->
  (forall vs, result (mscope_call B n E H m st Sc this (qname (y ++ [c])) vs) = result (mscope_call B n E H m st Sc 0 (qname (x0 ++ y ++ [c])) vs)) /\
  (forall ret vs, result (mscope_call_ret B n E H m st Sc this (qname (y ++ [c])) ret vs) =
     result (mscope_call_ret B n E H m st Sc 0 (qname (x0 ++ y ++ [c])) ret vs)) /\
  (forall ret cs, result (scope_call_ret n E H st Sc this (qname (y ++ [c])) ret cs) =
     result (scope_call_ret n E H st Sc 0 (qname (x0 ++ y ++ [c])) ret cs)).
Proof.
  intros B n E H m st Sc this x0 y c Ws Wk F. unfold mscope_call, mscope_call_ret, scope_call_ret.
  destruct (sfunction_inside Sc this x0 y c Ws Wk F) as [(os & S1 & S2 & E1 & E2 & _)|(E1 & E2)]; rewrite E1, E2; cbn [bind result]; repeat split; intros.
  - now destruct (moverloads_call _ _ _ _ _ _ _ _ _).
  - destruct (moverloads_call _ _ _ _ _ _ _ _ _) as [[[w m1] st1]| | | |]; cbn; auto. now destruct (mret_cast _ _ _ _ _ _ _).
  - now destruct (overloads_call_ret _ _ _ _ _ _ _).
Qed.
Print Assumptions c81_inside.
Theorem c81_inside_names : forall B n E H m st Sc this x0 y c vs Sc' r, wf_scopes Sc -> walk Sc 0 x0 = Some this -> Forall component (x0 ++ y ++ [c]) ->
  mscope_call B n E H m st Sc this (qname (y ++ [c])) vs = Ok (Sc', r) ->
  forall x d os, vfn Sc' x d os <-> vfn Sc x d os.
Proof.
  intros B n E H m st Sc this x0 y c vs Sc' r Ws Wk F Q. unfold mscope_call in Q.
  destruct (sfunction_inside Sc this x0 y c Ws Wk F) as [(os & S1 & S2 & E1 & E2 & V & _)|(E1 & E2)]; rewrite E1 in Q; cbn [bind] in Q; [|discriminate].
  destruct (moverloads_call _ _ _ _ _ _ _ _ _); try discriminate. cbn in Q. injection Q as <- _. exact V.
Qed.
Print Assumptions c81_inside_names.

(* False of the code: that a variable reflected in the body of reflectScope(a) belongs
   to a.  It is registered in the global scope under the name as it is spelled. *)
Theorem c81_scope_refuted : exists H Sc inside Sc', scope sinit 0 (lit "a") = Ok (Sc, inside) /\
  reflectGlobalVar H Sc inside (lit "v") 2 false 0 = Ok Sc' /\
  shasFunction Sc' inside (lit "v") = Ok false /\ shasFunction Sc' 0 (lit "a::v") = Ok false /\ shasFunction Sc' 0 (lit "v") = Ok true.
Proof.
  exists exHeap. destruct (scope sinit 0 (lit "a")) as [[Sc p]| | | |] eqn:E; try (vm_compute in E; discriminate).
  exists Sc, p. vm_compute in E. injection E as <- <-. eexists. repeat split; vm_compute; reflexivity.
Qed.
Print Assumptions c81_scope_refuted.

(* ----- a concrete program: int a::v and const int w ----- *)
Definition exGlobals : list global :=
  [Global [lit "a"] (lit "v") 2 false (1, 0%N); Global [] (lit "w") 2 true (2, 0%N)].
Definition exMem : mem := mset (mset (mset (fun _ => DNone) 1 (DData 5%N)) 2 (DData 6%N)) 3 (DData 7%N).
Lemma exName x : In x [lit "a"; lit "v"; lit "w"] -> component x.
Proof. intros [<-|[<-|[<-|[]]]]; apply nocolon_component; try discriminate; try reflexivity; cbn; intuition discriminate. Qed.
Lemma exGlobals_reflected : exists Sc, reflect_all callHeap sinit 0 (fun _ => 0) exGlobals = Ok Sc /\ reflected callHeap exGlobals Sc.
Proof.
  apply (c81_all_registered callHeap [] sinit); [reflexivity| |].
  - intros g [<-|[<-|[]]]; (split; [repeat constructor; apply exName; cbn; tauto|]); intros os (p & s & Ew & Es & Ef); vm_compute in Ew; try discriminate.
    injection Ew as <-. vm_compute in Es. injection Es as <-. discriminate.
  - constructor; [intros [Q|[]]; vm_compute in Q; discriminate|constructor; [intros []|constructor]].
Qed.
Lemma exGlobals_types g : In g exGlobals -> value_type exCpp callHeap (g_type g).
Proof. intros [<-|[<-|[]]]; (constructor; [vld|split; discriminate|noconv2|reflexivity]). Qed.
Lemma exMem_unborn : forall o, 4 <= o -> exMem o = DNone.
Proof.
  intros o Lo. unfold exMem, mset. destruct (Nat.eqb_spec o 3); [lia|]. destruct (Nat.eqb_spec o 2); [lia|].
  destruct (Nat.eqb_spec o 1); [lia|]. reflexivity.
Qed.
(* v is read, w is copied into v, the scopes change, v is read again *)
Example c81_ex : exists Sc, reflected callHeap exGlobals Sc /\
  gknows callHeap exGlobals (GWorld exMem (St 4 []) Sc (read exMem)) /\
  (forall rest, exists Sc2 w2 m2 st2,
     mscope_call (globals_body (map g_at exGlobals) rest) 2 exCpp callHeap exMem (St 4 []) Sc 0 (lit "a::v")
       [Val (Arg 2 RValue true) (2, 0%N) false] = Ok (Sc2, (w2, m2, st2)) /\
     read m2 (1, 0%N) = Some 6%N /\ read m2 (2, 0%N) = Some 6%N /\
     mscope_call (globals_body (map g_at exGlobals) rest) 2 exCpp callHeap m2 st2 Sc2 0 (lit "w")
       [Val (Arg 2 LValue false) (3, 0%N) false] = Abort).
Proof.
  destruct exGlobals_reflected as (Sc & _ & R). exists Sc. split; [exact R|]. split.
  - split; [|split; [exact R|auto]]. exact exMem_unborn.
  - intros rest.
    destruct (c81_write exCpp callHeap exGlobals rest Sc 0 _ 1 exMem (St 4 []) (Val (Arg 2 RValue true) (2, 0%N) false) 6%N callHeap_wf ltac:(discriminate) R eq_refl
      (exGlobals_types _ (or_introl eq_refl)) eq_refl) as (Sc2 & w2 & m2 & st2 & Ec & R2 & _ & _ & R1 & Ro & _); try reflexivity; try discriminate.
    { exact exMem_unborn. }
    exists Sc2, w2, m2, st2. split; [exact Ec|]. split; [exact R1|]. split; [rewrite Ro by discriminate; reflexivity|].
    apply (c81_refused exCpp callHeap exGlobals rest Sc2 1 (Global [] (lit "w") 2 true (2, 0%N))); auto; try discriminate.
    + exact callHeap_wf.
    + exact (exGlobals_types _ (or_intror (or_introl eq_refl))).
    + repeat constructor; vld.
Qed.

Example c81_inside_ex : exists Sc this, reflected callHeap exGlobals Sc /\ walk Sc 0 [lit "a"] = Some this /\ this <> 0 /\
  forall rest, exists Sc' w, mscope_call (globals_body (map g_at exGlobals) rest) 2 exCpp callHeap exMem (St 4 []) Sc this (lit "v") [] = Ok (Sc', w).
Proof.
  destruct exGlobals_reflected as (Sc & E & R). exists Sc, 1. vm_compute in E. injection E as <-. split; [exact R|]. split; [reflexivity|]. split; [discriminate|].
  intro rest. eexists. eexists. reflexivity.
Qed.
