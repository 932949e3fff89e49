(* ProofPtr2.v - the members of reflected raw and smart pointers, one call at a time
   (used by PropPtr, C71). *)
From Coq Require String.
Import String.StringSyntax.
From Coq Require Import Permutation.
From Verif Require Import Base ModelCore SpecCore ProofCore ProofMatch ModelValue SpecValue ProofValue ModelPlumb SpecPlumb ProofPlumb ProofPlumb2 ProofPlumb3 ModelCont SpecCont ProofCont ProofCont2 ModelPtr SpecPtr ProofPtr.

Lemma mcall_is B n E H m st v name vs : mcall B n E H m st v name vs = mtype_call B n E H m st (v_type v) name (v :: vs).
Proof. reflexivity. Qed.

(* what happens once the body has run *)
Definition finish (E : cpp) (H : heap) (f : fn) (qs : list param) (log : list (nat * list param)) (x : mem * nat * result) : outcome (value * mem * state) :=
  let '(r2, res) := x in let '(m2, next2) := r2 in
  bind (wrap_ret (with_ref E res) H f qs (St next2 log))
    (fun y => let '(w, st2) := y in Ok (w, match res with RNew d => mset m2 next2 d | _ => m2 end, st2)).

Lemma mtype_chosen B n E H m st T name vs os f g qs st1 m1 : function H T name = Ok os ->
  overloads_resolve H os (ret_value H) (map v_arg vs) = Ok (Chosen f) ->
  test_sig H f (ret_value H) (map v_arg vs) = Ok g -> g <> MNone ->
  pass_all n E H st vs (f_args f) = Ok (qs, st1) ->
  run_ctors m (st_next st) (skipn (length (st_log st)) (st_log st1)) = Ok m1 ->
  mtype_call B n E H m st T name vs = bind (B (f_code f) qs m1 (st_next st1)) (finish E H f qs (st_log st1)).
Proof.
  intros Eo Er Et Ng Ep Em. unfold mtype_call. rewrite Eo. cbn [bind]. rewrite Er. cbn [bind]. rewrite Et. cbn [bind].
  destruct g; [congruence| |]; cbn [grade_eqb]; rewrite Ep; cbn [bind]; rewrite Em; cbn [bind]; reflexivity.
Qed.
Lemma mtype_none B n E H m st T name vs os : function H T name = Ok os ->
  overloads_resolve H os (ret_value H) (map v_arg vs) = Ok NoOverload ->
  mtype_call B n E H m st T name vs = Abort.
Proof. intros Eo Er. unfold mtype_call. rewrite Eo. cbn [bind]. rewrite Er. reflexivity. Qed.

Lemma finish_new E H f qs log m2 next2 d X : f_ret f = Arg X Copy false -> X <> h_void H -> X <> h_value H ->
  cpp_movable E X || cpp_copyable E X = true ->
  exists log', finish E H f qs log (m2, next2, RNew d) = Ok (Val (Arg X LValue false) (next2, 0%N) true, mset m2 next2 d, St (S next2) log').
Proof.
  intros Er N1 N2 M. unfold finish, wrap_ret. rewrite Er. cbn [a_type a_ref a_const].
  rewrite (nat_eqb_neq _ _ N1), (nat_eqb_neq _ _ N2). cbn [ref_eqb]. unfold make_value. cbn [a_ref ref_eqb negb].
  unfold storable. cbn [cpp_copyable cpp_movable with_ref a_type a_const negb andb]. rewrite M. cbn. eauto.
Qed.
Lemma finish_ref E H f qs log m2 next2 a X c : f_ret f = Arg X LValue c -> X <> h_void H -> X <> h_value H ->
  exists log', finish E H f qs log (m2, next2, RRef a) = Ok (Val (Arg X LValue c) a false, m2, St next2 log').
Proof.
  intros Er N1 N2. unfold finish, wrap_ret. rewrite Er. cbn [a_type a_ref a_const].
  rewrite (nat_eqb_neq _ _ N1), (nat_eqb_neq _ _ N2). cbn. eauto.
Qed.
Lemma finish_void E H f qs log m2 next2 : f_ret f = Arg (h_void H) Copy false ->
  exists log', finish E H f qs log (m2, next2, RVoid) = Ok (void_value H, m2, St next2 log').
Proof. intros Er. unfold finish, wrap_ret. rewrite Er. cbn [a_type]. rewrite Nat.eqb_refl. cbn. eauto. Qed.

Lemma if_true {X} (x : bool) (a c : X) : x = true -> (if x then a else c) = a.
Proof. now intros ->. Qed.
Lemma if_false {X} (x : bool) (a c : X) : x = false -> (if x then a else c) = c.
Proof. now intros ->. Qed.

(* overloads none of which fits, and a last one that does *)
Lemma resolve_last H l f ret args g : (forall f', In f' l -> test_sig H f' ret args = Ok MNone) ->
  test_sig H f ret args = Ok g -> g <> MNone -> overloads_resolve H (l ++ [f]) ret args = Ok (Chosen f).
Proof.
  intros N T Ng. assert (E : overloads_resolve H (l ++ [f]) ret args = overloads_resolve H [f] ret args).
  { unfold overloads_resolve. enough (G : forall best amb, resolve_loop H (l ++ [f]) ret args best amb = resolve_loop H [f] ret args best amb) by now rewrite G.
    induction l as [|a l IH]; intros best amb; [reflexivity|]. cbn [app resolve_loop]. rewrite (N a) by now left. cbn [bind grade_eqb].
    apply IH. intros f' I. apply N. now right. }
  rewrite E. rewrite (resolve_one _ _ _ _ _ T). destruct g; [congruence|reflexivity..].
Qed.

Lemma sm_name shared pid n : firstn 2 n <> firstn 2 (lit "std") -> n <> smart_name shared pid.
Proof. intros Hn ->. apply Hn. unfold smart_name. now destruct shared. Qed.

Section Smart.
Context (E : cpp) (H : heap) (shared : bool) (b rb : nat) (T P PP B : tptr) (pid : str).
Context (ST : smart_type E H shared b rb T P PP B pid).
Notation k := (Caps true shared true shared true).
Notation all := (Caps true true true true true).
Notation id := (smart_name shared pid).
Notation regs := ((if shared then sharedPtr else uniquePtr) id T P PP B (h_void H) k b).

Let W : wf_heap H := sm_wf _ _ _ _ _ _ _ _ _ _ ST.
Let C := sm_carries _ _ _ _ _ _ _ _ _ _ ST.
Let CP := sm_raw _ _ _ _ _ _ _ _ _ _ ST.
Let A := sm_apart _ _ _ _ _ _ _ _ _ _ ST.
Let NV : h_value H <> h_void H := proj1 A.
Let NTd : T <> h_void H := proj1 (proj2 A).
Let NTv : T <> h_value H := proj1 (proj2 (proj2 A)).
Let NQd : PP <> h_void H := proj1 (proj2 (proj2 (proj2 A))).
Let NQv : PP <> h_value H := proj1 (proj2 (proj2 (proj2 (proj2 A)))).
Let NPd : P <> h_void H := proj1 (proj2 (proj2 (proj2 (proj2 (proj2 A))))).
Let NPv : P <> h_value H := proj1 (proj2 (proj2 (proj2 (proj2 (proj2 (proj2 A)))))).
Let NBd : B <> h_void H := proj1 (proj2 (proj2 (proj2 (proj2 (proj2 (proj2 (proj2 A))))))).
Let NBv : B <> h_value H := proj2 (proj2 (proj2 (proj2 (proj2 (proj2 (proj2 (proj2 A))))))).
Let VP : valid H P := proj1 (sm_valid _ _ _ _ _ _ _ _ _ _ ST).
Let VB : valid H B := proj2 (sm_valid _ _ _ _ _ _ _ _ _ _ ST).

Lemma sm_T_valid : valid H T.
Proof. destruct C as (t & Et & _). eapply tget_valid; eauto. Qed.
Lemma sm_PP_valid : valid H PP.
Proof. destruct CP as (t & Et & _). eapply tget_valid; eauto. Qed.
Lemma last_star (a : str) x : a ++ lit "*" = x ++ lit ">" -> False.
Proof. intro Q. change (lit "*") with [42%N] in Q. change (lit ">") with [62%N] in Q. apply snoc_inv in Q as (_ & Q). discriminate. Qed.
Lemma sm_PP_T : PP <> T.
Proof.
  intros Q. pose proof CP as (t & Et & Ei & _). pose proof C as (t' & Et' & Ei' & _). rewrite Q in Et. assert (t = t') as -> by congruence.
  rewrite Ei in Ei'. unfold smart_name in Ei'. rewrite !app_assoc in Ei'. now apply last_star in Ei'.
Qed.
Lemma raw_points p kind : points_to H PP kind p -> kind = lit "*".
Proof.
  intros (t & Et & _ & K & _). pose proof CP as (t' & Et' & _ & _ & _ & _ & Ep & _ & _). assert (t' = t) as -> by congruence.
  destruct (Ep (lit "*") P) as (Q & _); [|congruence]. unfold rawPointer, plumbing. reflexivity.
Qed.
Lemma raw_may_point : may_point H PP P.
Proof.
  split; [exact VP|]. destruct (wf_acyclic _ W) as (rank & R). exists rank. split; [exact R|]. apply R.
  pose proof CP as (t' & Et' & _ & _ & _ & _ & Ep & _ & _). exists t'. split; auto. right.
  destruct (Ep (lit "*") P) as (_ & Q); [|congruence]. unfold rawPointer, plumbing. reflexivity.
Qed.
Lemma raw_plumbed_body : plumbed_body H PP (pid ++ lit "*") all rb (rawPointer (pid ++ lit "*") PP P B all rb) [].
Proof.
  destruct (pointer_extension H PP P B pid rb (plumbing (pid ++ lit "*") PP all_caps rb ++ pointer_ext PP P B rb) (sm_pid _ _ _ _ _ _ _ _ _ _ ST) sm_PP_valid VB raw_may_point) as (X & Y).
  exact (extension_plumbed H H PP (pid ++ lit "*") all rb _ (pointer_ext PP P B rb) X CP Y).
Qed.
Lemma raw_id_assign : pid ++ lit "*" <> lit "operator=".
Proof. apply star_not_op. apply (sm_pid _ _ _ _ _ _ _ _ _ _ ST). Qed.
Lemma raw_plumbed : plumbed E H PP PP.
Proof.
  destruct (sm_cpp _ _ _ _ _ _ _ _ _ _ ST) as (_ & _ & M & Cc & _).
  exact (plumbing_plumbed H PP (pid ++ lit "*") all rb _ [] W raw_plumbed_body raw_id_assign NQd NQv E Cc M eq_refl eq_refl).
Qed.

Lemma regs_eq : regs = RPointer (smart_kind shared) P :: plumbing id T k b ++ smart_ext id T P PP B b (smart_more shared T PP (h_void H) b).
Proof. unfold sharedPtr, uniquePtr, smartPtr, smart_ext, smart_more. destruct shared; cbn [smart_kind]; rewrite <- app_assoc; reflexivity. Qed.
Lemma sm_plumbed_body : plumbed_body H T id k b regs [Fn id (Arg T Copy false) [Arg PP Copy false] (b + 5)].
Proof.
  rewrite regs_eq. apply (smart_plumbed H H shared T P PP B pid b k); auto using sm_PP_T, sm_PP_valid.
  - repeat split; auto.
  - intros p Q. apply raw_points in Q. destruct shared; discriminate.
  - intros t Et Q. pose proof CP as (t' & Et' & Ei & _). assert (t' = t) as -> by congruence. rewrite Ei in Q.
    change (lit "bool") with (lit "boo" ++ lit "l") in Q. change (lit "*") with [42%N] in Q. change (lit "l") with [108%N] in Q.
    apply snoc_inv in Q as (_ & Q). discriminate.
  - pose proof C as C'. now rewrite regs_eq in C'.
Qed.
Lemma sm_id_assign : id <> lit "operator=".
Proof. unfold smart_name. destruct shared; discriminate. Qed.
Lemma sm_noconv : ~ has_user_conversion H T T.
Proof. exact (pl_noconv H T id k b _ _ sm_plumbed_body). Qed.
Lemma sm_movable : isMovable H T = Ok true.
Proof. exact (proj2 (plumbing_copiable H T id k b _ _ W sm_plumbed_body sm_id_assign NTv)). Qed.
Lemma sm_ctors : function H T id = Ok (fns_of id regs).
Proof. exact (proj1 (ctors_lookup H T id k b _ _ W sm_plumbed_body sm_id_assign eq_refl)). Qed.
Lemma sm_assigns : function H T (lit "operator=") = Ok (fns_of (lit "operator=") regs).
Proof. apply (assign_lookup H T id k b _ _ W sm_plumbed_body sm_id_assign). cbn. now rewrite orb_true_r. Qed.

Lemma sm_function n l : n <> id -> n <> lit "operator=" -> fns_of n (smart_ext id T P PP B b (smart_more shared T PP (h_void H) b)) = l -> l <> [] ->
  function H T n = Ok l.
Proof.
  intros N1 N2 El Nl. pose proof (carries_function H T id _ n C W) as (F & _).
  assert (Q : fns_of n regs = l).
  { rewrite regs_eq. change (fns_of n (plumbing id T k b ++ smart_ext id T P PP B b (smart_more shared T PP (h_void H) b)) = l).
    rewrite fns_of_app, (fns_of_none n (plumbing id T k b)); [exact El|].
    intros ret args code I. apply plumbing_names in I as [?|?]; congruence. }
  rewrite Q in F. now apply F.
Qed.

Lemma gS r c r' c' : isConvertibleTo H (Arg T r c) (Arg T r' c') = Ok (same_grade (Arg T r c) (Arg T r' c')).
Proof. apply same_type_grade; auto using sm_T_valid, sm_noconv. Qed.
Lemma gQ r c r' c' : isConvertibleTo H (Arg PP r c) (Arg PP r' c') = Ok (same_grade (Arg PP r c) (Arg PP r' c')).
Proof. apply same_type_grade; auto using sm_PP_valid. apply (pl_conv _ _ _ _ raw_plumbed). Qed.

(* a raw pointer is not taken for a smart one *)
Lemma raw_names n ret args code : In (RFn n ret args code) (rawPointer (pid ++ lit "*") PP P B all rb) ->
  n = pid ++ lit "*" \/ n = lit "operator=" \/ n = lit "operator bool()" \/ n = lit "operator*".
Proof.
  unfold rawPointer. intros [I|I]%in_app_or.
  - apply plumbing_names in I. tauto.
  - cbn -[lit] in I. destruct I as [I|[I|[I|[I|[I|[]]]]]]; try discriminate; injection I as <-; auto.
Qed.
Lemma raw_no_conversion : ~ has_user_conversion H PP T.
Proof.
  intro U. destruct (carries_conversion H PP _ _ T CP) as (tu & ret & args & code & Etu & I); auto.
  { destruct C as (t & Et & _). congruence. }
  pose proof C as (t & Et & Ei & _). assert (tu = t) as -> by congruence. rewrite Ei in I.
  apply raw_names in I as [I|[I|[I|I]]].
  - unfold converterName in I. 
    symmetry in I. rewrite !app_assoc in I. change (lit "*") with [42%N] in I.
    match type of I with _ = ?x ++ lit "()" => change (lit "()") with ([40%N] ++ [41%N]) in I; rewrite app_assoc in I end.
    apply snoc_inv in I as (_ & I). discriminate.
  - now apply converterName_neq_assign in I.
  - destruct shared; discriminate.
  - destruct shared; discriminate.
Qed.
Lemma raw_not_smart : ~ Subtype H PP T.
Proof.
  intro S0. inversion S0 as [x Ex|x p y Pp|x y kk pa pb Pa Pb]; subst x; try (subst y).
  - now apply sm_PP_T.
  - destruct Pp as (u & Eu & Pu). destruct CP as (t & Et & _ & Q & _). congruence.
  - apply raw_points in Pa. subst kk. destruct Pb as (t & Et & _ & K & _). pose proof C as (t' & Et' & _ & _ & _ & _ & Ep & _ & _). assert (t' = t) as -> by congruence.
    destruct (Ep (smart_kind shared) P) as (Q & _).
    { rewrite regs_eq. unfold smart_ext, smart_more, plumbing. destruct shared; reflexivity. }
    rewrite K in Q. destruct shared; discriminate.
Qed.

(* ----- from a call to its body ----- *)
Section Shapes.
Context (Bd : body) (n : nat) (m : mem) (st : state).

Definition alone (os : overloads) (f : fn) (args : list argument) : Prop :=
  os = [f] \/ exists g, length args <> length (f_args g) /\ a_type (f_ret g) <> h_value H /\ (os = [f; g] \/ os = [g; f]).
Lemma resolve_alone os f args g : alone os f args -> test_sig H f (ret_value H) args = Ok g -> g <> MNone ->
  overloads_resolve H os (ret_value H) args = Ok (Chosen f).
Proof.
  intros [->|(h & L & Rv & [->| ->])] Ts Ng.
  - rewrite (resolve_one _ _ _ _ _ Ts). destruct g; [congruence|reflexivity..].
  - assert (Th : test_sig H h (ret_value H) args = Ok MNone) by (destruct h; cbn in *; now apply test_arity).
    unfold overloads_resolve. cbn [resolve_loop]. rewrite Ts. cbn [bind]. destruct g; [congruence| |reflexivity]. cbn [grade_eqb andb]. rewrite Th. reflexivity.
  - assert (Th : test_sig H h (ret_value H) args = Ok MNone) by (destruct h; cbn in *; now apply test_arity).
    change [h; f] with ([h] ++ [f]). apply (resolve_last H [h] f _ _ g); auto. intros f' [<-|[]]. exact Th.
Qed.

Lemma call1c name ret code os v : function H T name = Ok os -> alone os (Fn name ret [Arg T LValue true] code) [v_arg v] -> a_type ret <> h_value H -> v_type v = T ->
  mtype_call Bd (S n) E H m st T name [v] =
    bind (Bd code [PRef (v_addr v)] m (st_next st)) (finish E H (Fn name ret [Arg T LValue true] code) [PRef (v_addr v)] (st_log st)).
Proof.
  intros Fo Al Rv Tv. pose proof (arg_of v T Tv) as Ea. set (f := Fn name ret [Arg T LValue true] code) in *.
  assert (Ts : test_sig H f (ret_value H) (map v_arg [v]) = Ok (same_grade (v_arg v) (Arg T LValue true))).
  { cbn [map]. unfold f. rewrite test_one by auto. rewrite Ea at 1. rewrite gS. now rewrite <- Ea. }
  assert (Ng : same_grade (v_arg v) (Arg T LValue true) <> MNone) by (rewrite Ea; apply cref_grade).
  apply (mtype_chosen Bd (S n) E H m st T name [v] os f _ [PRef (v_addr v)] st m Fo) with (1 := resolve_alone _ _ _ _ Al Ts Ng) (2 := Ts) (3 := Ng).
  - cbn [f_args f pass_all]. rewrite pass_cref by (auto using sm_T_valid). reflexivity.
  - apply ctors_none.
Qed.
Lemma call1m name ret code os v o : function H T name = Ok os -> alone os (Fn name ret [Arg T LValue false] code) [v_arg v] -> a_type ret <> h_value H -> mutable_handle T o v ->
  mtype_call Bd (S n) E H m st T name [v] =
    bind (Bd code [PRef (v_addr v)] m (st_next st)) (finish E H (Fn name ret [Arg T LValue false] code) [PRef (v_addr v)] (st_log st)).
Proof.
  intros Fo Al Rv (Ea & Av). set (f := Fn name ret [Arg T LValue false] code) in *.
  assert (Ts : test_sig H f (ret_value H) (map v_arg [v]) = Ok MExact).
  { cbn [map]. unfold f. rewrite test_one by auto. rewrite Ea, gS. reflexivity. }
  apply (mtype_chosen Bd (S n) E H m st T name [v] os f MExact [PRef (v_addr v)] st m Fo) with (2 := Ts); [|discriminate| |apply ctors_none].
  - eapply resolve_alone; eauto. discriminate.
  - cbn [f_args f pass_all]. rewrite pass_mut by (auto using sm_T_valid). reflexivity.
Qed.
Lemma call2c name ret code os v x : function H T name = Ok os -> alone os (Fn name ret [Arg T LValue true; Arg T LValue true] code) [v_arg v; v_arg x] -> a_type ret <> h_value H ->
  v_type v = T -> v_type x = T ->
  mtype_call Bd (S n) E H m st T name [v; x] =
    bind (Bd code [PRef (v_addr v); PRef (v_addr x)] m (st_next st)) (finish E H (Fn name ret [Arg T LValue true; Arg T LValue true] code) [PRef (v_addr v); PRef (v_addr x)] (st_log st)).
Proof.
  intros Fo Al Rv Tv Tx. pose proof (arg_of v T Tv) as Ea. pose proof (arg_of x T Tx) as Ex. set (f := Fn name ret [Arg T LValue true; Arg T LValue true] code) in *.
  assert (Ts : test_sig H f (ret_value H) (map v_arg [v; x]) = Ok (combine (same_grade (v_arg v) (Arg T LValue true)) (same_grade (v_arg x) (Arg T LValue true)))).
  { cbn [map]. unfold f. apply test_two; auto; [rewrite Ea; apply gS|rewrite Ex; apply gS]. }
  assert (Ng : combine (same_grade (v_arg v) (Arg T LValue true)) (same_grade (v_arg x) (Arg T LValue true)) <> MNone).
  { rewrite Ea, Ex. pose proof (cref_grade T (a_ref (v_arg v)) (a_const (v_arg v))). pose proof (cref_grade T (a_ref (v_arg x)) (a_const (v_arg x))).
    now destruct (same_grade (Arg T (a_ref (v_arg v)) _) _), (same_grade (Arg T (a_ref (v_arg x)) _) _). }
  apply (mtype_chosen Bd (S n) E H m st T name [v; x] os f _ [PRef (v_addr v); PRef (v_addr x)] st m Fo) with (1 := resolve_alone _ _ _ _ Al Ts Ng) (2 := Ts) (3 := Ng).
  - cbn [f_args f pass_all]. rewrite pass_cref by (auto using sm_T_valid). cbn [bind]. rewrite pass_cref by (auto using sm_T_valid). reflexivity.
  - apply ctors_none.
Qed.
(* the by-value raw pointer is copied into a new object first *)
Lemma pass_raw x p : raw_handle PP m x p -> exists st1,
  pass (S (S n)) E H st x (Arg PP Copy false) = Ok (PCopy (st_next st, 0%N), st1) /\ st_next st1 = S (st_next st) /\
  run_ctors m (st_next st) (skipn (length (st_log st)) (st_log st1)) = Ok (mset m (st_next st) (DPtr p)).
Proof.
  intros (Tx & Mx). destruct (pass_index n E H st x PP W NV sm_PP_valid raw_plumbed Tx) as (code & q & Ep & Q).
  eexists. split; [exact Ep|]. split; [reflexivity|]. cbn [st_log].
  assert (Sk : skipn (length (st_log st)) (st_log st ++ [(code, [q])]) = [(code, [q])]) by (rewrite skipn_app, skipn_all, Nat.sub_diag; reflexivity).
  rewrite Sk. destruct Q as [->| ->]; cbn [run_ctors]; unfold copy_of; rewrite Mx; reflexivity.
Qed.
Lemma call2p name ret code os v o x p : function H T name = Ok os -> alone os (Fn name ret [Arg T LValue false; Arg PP Copy false] code) [v_arg v; v_arg x] -> a_type ret <> h_value H ->
  mutable_handle T o v -> raw_handle PP m x p -> exists log,
  mtype_call Bd (S (S n)) E H m st T name [v; x] =
    bind (Bd code [PRef (v_addr v); PCopy (st_next st, 0%N)] (mset m (st_next st) (DPtr p)) (S (st_next st)))
      (finish E H (Fn name ret [Arg T LValue false; Arg PP Copy false] code) [PRef (v_addr v); PCopy (st_next st, 0%N)] log).
Proof.
  intros Fo Al Rv (Ea & Av) Rx. destruct (pass_raw x p Rx) as (st1 & Ep & En & Ec). destruct Rx as (Tx & Mx). pose proof (arg_of x PP Tx) as Ex.
  set (f := Fn name ret [Arg T LValue false; Arg PP Copy false] code) in *.
  assert (Ts : test_sig H f (ret_value H) (map v_arg [v; x]) = Ok (combine MExact (same_grade (v_arg x) (Arg PP Copy false)))).
  { cbn [map]. unfold f. apply test_two; auto; [rewrite Ea, gS; reflexivity|rewrite Ex; apply gQ]. }
  assert (Ng : combine MExact (same_grade (v_arg x) (Arg PP Copy false)) <> MNone).
  { rewrite Ex. pose proof (copy_grade PP (a_ref (v_arg x)) (a_const (v_arg x))). now destruct (same_grade _ _). }
  exists (st_log st1). rewrite <- En.
  apply (mtype_chosen Bd (S (S n)) E H m st T name [v; x] os f _ [PRef (v_addr v); PCopy (st_next st, 0%N)] st1 _ Fo) with (1 := resolve_alone _ _ _ _ Al Ts Ng) (2 := Ts) (3 := Ng).
  - cbn [f_args f pass_all]. rewrite pass_mut by (auto using sm_T_valid). cbn [bind]. rewrite Ep. reflexivity.
  - exact Ec.
Qed.

(* constructors and assignments *)
Lemma call_new : mtype_call Bd (S n) E H m st T id [] =
  bind (Bd (b + 0) [] m (st_next st)) (finish E H (Fn id (Arg T Copy false) [] b) [] (st_log st)).
Proof.
  set (f := Fn id (Arg T Copy false) [] b).
  assert (Ts : test_sig H f (ret_value H) (map v_arg []) = Ok MExact).
  { exact (pl_test0 H T NTd NTv NV id Copy false b). }
  rewrite Nat.add_0_r.
  apply (mtype_chosen Bd (S n) E H m st T id [] _ f MExact [] st m sm_ctors) with (2 := Ts); [|discriminate|reflexivity|apply ctors_none].
  apply (ctor_resolution H T id k b _ _ W sm_plumbed_body sm_id_assign NTd NTv NV []); [reflexivity|constructor].
Qed.
Lemma call_move x : v_type x = T -> gives x -> mtype_call Bd (S n) E H m st T id [x] =
  bind (Bd (b + 3) [PMove (v_addr x)] m (st_next st)) (finish E H (Fn id (Arg T Copy false) [Arg T RValue false] (b + 3)) [PMove (v_addr x)] (st_log st)).
Proof.
  intros Tv Gv. pose proof (arg_of x T Tv) as Ea. set (f := Fn id (Arg T Copy false) [Arg T RValue false] (b + 3)).
  assert (Ts : test_sig H f (ret_value H) (map v_arg [x]) = Ok MExact).
  { cbn [map]. unfold f. rewrite test_one by auto. rewrite Ea at 1. rewrite gS. destruct Gv as (-> & ->). reflexivity. }
  apply (mtype_chosen Bd (S n) E H m st T id [x] _ f MExact [PMove (v_addr x)] st m sm_ctors) with (2 := Ts); [|discriminate| |apply ctors_none].
  - erewrite (ctor_resolution H T id k b _ _ W sm_plumbed_body sm_id_assign NTd NTv NV); [|reflexivity|cbn [map]; constructor; [exact Tv|constructor]].
    cbn [ctor_choice map]. apply gives_bool in Gv. rewrite Gv. reflexivity.
  - cbn [f_args f pass_all]. rewrite pass_rref; [cbn [bind]; reflexivity|..]; rewrite ?Tv; cbn [a_type a_ref]; auto using sm_T_valid, sm_movable.
    + apply (sm_cpp _ _ _ _ _ _ _ _ _ _ ST).
    + constructor.
Qed.
Lemma call_copy x : shared = true -> v_type x = T -> ~ gives x -> mtype_call Bd (S n) E H m st T id [x] =
  bind (Bd (b + 1) [PRef (v_addr x)] m (st_next st)) (finish E H (Fn id (Arg T Copy false) [Arg T LValue true] (b + 1)) [PRef (v_addr x)] (st_log st)).
Proof.
  intros Sh Tv Gv. pose proof (arg_of x T Tv) as Ea. set (f := Fn id (Arg T Copy false) [Arg T LValue true] (b + 1)).
  assert (Ts : test_sig H f (ret_value H) (map v_arg [x]) = Ok (same_grade (v_arg x) (Arg T LValue true))).
  { cbn [map]. unfold f. rewrite test_one by auto. rewrite Ea at 1. rewrite gS. now rewrite <- Ea. }
  assert (Ng : same_grade (v_arg x) (Arg T LValue true) <> MNone) by (rewrite Ea; apply cref_grade).
  apply (mtype_chosen Bd (S n) E H m st T id [x] _ f _ [PRef (v_addr x)] st m sm_ctors) with (2 := Ts) (3 := Ng); [| |apply ctors_none].
  - erewrite (ctor_resolution H T id k b _ _ W sm_plumbed_body sm_id_assign NTd NTv NV); [|reflexivity|cbn [map]; constructor; [exact Tv|constructor]].
    cbn [ctor_choice map k_copy]. destruct (ref_eqb (a_ref (v_arg x)) RValue && negb (a_const (v_arg x))) eqn:G; [elim Gv; now apply gives_bool|].
    now rewrite (if_true shared _ _ Sh).
  - cbn [f_args f pass_all]. rewrite pass_cref by (auto using sm_T_valid). reflexivity.
Qed.
Lemma call_no_copy x : shared = false -> v_type x = T -> ~ gives x -> mtype_call Bd (S n) E H m st T id [x] = Abort.
Proof.
  intros Sh Tv Gv. eapply mtype_none; [exact sm_ctors|].
  erewrite (ctor_resolution H T id k b _ _ W sm_plumbed_body sm_id_assign NTd NTv NV); [|reflexivity|cbn [map]; constructor; [exact Tv|constructor]].
  cbn [ctor_choice map k_copy]. destruct (ref_eqb (a_ref (v_arg x)) RValue && negb (a_const (v_arg x))) eqn:G; [elim Gv; now apply gives_bool|].
  now rewrite (if_false shared _ _ Sh).
Qed.
Lemma call_from x p : raw_handle PP m x p -> exists log, mtype_call Bd (S (S n)) E H m st T id [x] =
  bind (Bd (b + 5) [PCopy (st_next st, 0%N)] (mset m (st_next st) (DPtr p)) (S (st_next st)))
    (finish E H (Fn id (Arg T Copy false) [Arg PP Copy false] (b + 5)) [PCopy (st_next st, 0%N)] log).
Proof.
  intros Rx. destruct (pass_raw x p Rx) as (st1 & Ep & En & Ec). destruct Rx as (Tx & Mx). pose proof (arg_of x PP Tx) as Ex.
  set (f := Fn id (Arg T Copy false) [Arg PP Copy false] (b + 5)).
  assert (Ts : test_sig H f (ret_value H) (map v_arg [x]) = Ok (same_grade (v_arg x) (Arg PP Copy false))).
  { cbn [map]. unfold f. rewrite test_one by auto. rewrite Ex at 1. rewrite gQ. now rewrite <- Ex. }
  assert (Ng : same_grade (v_arg x) (Arg PP Copy false) <> MNone) by (rewrite Ex; apply copy_grade).
  exists (st_log st1). rewrite <- En.
  apply (mtype_chosen Bd (S (S n)) E H m st T id [x] _ f _ [PCopy (st_next st, 0%N)] st1 _ sm_ctors) with (2 := Ts) (3 := Ng); [| |exact Ec].
  - rewrite (pb_ctors _ _ _ _ _ _ _ sm_plumbed_body). apply (resolve_last H _ _ _ _ _) with (2 := Ts) (3 := Ng).
    intros f' I. rewrite plumbing_ctors in I by apply sm_id_assign. cbn [k_def k_copy k_move andb] in I.
    assert (G : forall r c code, test_sig H (Fn id (Arg T Copy false) [Arg T r c] code) (ret_value H) (map v_arg [x]) = Ok MNone).
    { intros r c code. cbn [map]. rewrite test_one by auto. rewrite Ex. 
      apply isConvertibleTo_iff_Grade; auto; [exact sm_PP_valid|exact sm_T_valid|]. apply G_illegal.
      - intro Q. injection Q as Q _ _. now apply sm_PP_T.
      - unfold one_is_value. cbn. intuition.
      - cbn. apply raw_no_conversion.
      - cbn. intros (_ & Q). now apply raw_not_smart. }
    apply in_app_or in I as [I|I]; [|apply in_app_or in I as [I|I]].
    + destruct I as [<-|[]]. apply test_arity; auto. discriminate.
    + destruct shared; cbn in I; [destruct I as [<-|[]]; apply G|contradiction].
    + destruct I as [<-|[]]. apply G.
  - cbn [f_args f pass_all]. rewrite Ep. reflexivity.
Qed.
Lemma call_assign v o x : shared = true -> mutable_handle T o v -> v_type x = T -> ~ gives x -> mtype_call Bd (S n) E H m st T (lit "operator=") [v; x] =
  bind (Bd (b + 2) [PRef (v_addr v); PRef (v_addr x)] m (st_next st))
    (finish E H (Fn (lit "operator=") (Arg T LValue false) [Arg T LValue false; Arg T LValue true] (b + 2)) [PRef (v_addr v); PRef (v_addr x)] (st_log st)).
Proof.
  intros Sh (Ea & Av) Tx Gx. pose proof (arg_of x T Tx) as Ex.
  assert (Tv : v_type v = T) by (unfold v_type; now rewrite Ea).
  set (f := Fn (lit "operator=") (Arg T LValue false) [Arg T LValue false; Arg T LValue true] (b + 2)).
  assert (Ts : test_sig H f (ret_value H) (map v_arg [v; x]) = Ok (combine MExact (same_grade (v_arg x) (Arg T LValue true)))).
  { cbn [map]. unfold f. apply test_two; auto; [rewrite Ea, gS; reflexivity|]. rewrite Ex. apply gS. }
  assert (Ng : combine MExact (same_grade (v_arg x) (Arg T LValue true)) <> MNone).
  { rewrite Ex. pose proof (cref_grade T (a_ref (v_arg x)) (a_const (v_arg x))). now destruct (same_grade _ _). }
  apply (mtype_chosen Bd (S n) E H m st T (lit "operator=") [v; x] _ f _ [PRef (v_addr v); PRef (v_addr x)] st m sm_assigns) with (2 := Ts) (3 := Ng); [| |apply ctors_none].
  - cbn [map]. erewrite (assign_resolution H T id k b _ _ W sm_plumbed_body sm_id_assign NTd NTv NV); auto.
    unfold assign_choice. rewrite Ea. cbn [a_ref a_const ref_eqb negb andb k_move_assign k_copy_assign].
    destruct (ref_eqb (a_ref (v_arg x)) RValue && negb (a_const (v_arg x))) eqn:G; [elim Gx; now apply gives_bool|].
    cbn [andb]. now rewrite (if_true shared _ _ Sh).
  - cbn [f_args f pass_all]. rewrite pass_mut by (auto using sm_T_valid). cbn [bind]. rewrite pass_cref by (auto using sm_T_valid). reflexivity.
Qed.
Lemma call_move_assign v o x : mutable_handle T o v -> v_type x = T -> gives x -> mtype_call Bd (S n) E H m st T (lit "operator=") [v; x] =
  bind (Bd (b + 4) [PRef (v_addr v); PMove (v_addr x)] m (st_next st))
    (finish E H (Fn (lit "operator=") (Arg T LValue false) [Arg T LValue false; Arg T RValue false] (b + 4)) [PRef (v_addr v); PMove (v_addr x)] (st_log st)).
Proof.
  intros (Ea & Av) Tx Gx. pose proof (arg_of x T Tx) as Ex.
  assert (Tv : v_type v = T) by (unfold v_type; now rewrite Ea).
  set (f := Fn (lit "operator=") (Arg T LValue false) [Arg T LValue false; Arg T RValue false] (b + 4)).
  assert (Ts : test_sig H f (ret_value H) (map v_arg [v; x]) = Ok MExact).
  { cbn [map]. unfold f. erewrite test_two; auto; [| rewrite Ea, gS; reflexivity|rewrite Ex; apply gS]. destruct Gx as (-> & ->). reflexivity. }
  apply (mtype_chosen Bd (S n) E H m st T (lit "operator=") [v; x] _ f MExact [PRef (v_addr v); PMove (v_addr x)] st m sm_assigns) with (2 := Ts); [|discriminate| |apply ctors_none].
  - cbn [map]. erewrite (assign_resolution H T id k b _ _ W sm_plumbed_body sm_id_assign NTd NTv NV); auto.
    unfold assign_choice. rewrite Ea. cbn [a_ref a_const ref_eqb negb andb k_move_assign k_copy_assign].
    apply gives_bool in Gx. rewrite Gx. reflexivity.
  - cbn [f_args f pass_all]. rewrite pass_mut by (auto using sm_T_valid). cbn [bind].
    rewrite pass_rref; [cbn [bind]; reflexivity|..]; rewrite ?Tx; cbn [a_type a_ref]; auto using sm_T_valid, sm_movable.
    + apply (sm_cpp _ _ _ _ _ _ _ _ _ _ ST).
    + constructor.
Qed.
Lemma call_no_assign v x : v_type v = T -> v_type x = T ->
  (a_ref (v_arg v) <> LValue \/ a_const (v_arg v) = true) \/ (shared = false /\ ~ gives x) ->
  mtype_call Bd (S n) E H m st T (lit "operator=") [v; x] = Abort.
Proof.
  intros Tv Tx D. eapply mtype_none; [exact sm_assigns|]. cbn [map].
  erewrite (assign_resolution H T id k b _ _ W sm_plumbed_body sm_id_assign NTd NTv NV); auto.
  unfold assign_choice. cbn [k_move_assign k_copy_assign].
  destruct (negb (ref_eqb (a_ref (v_arg v)) LValue && negb (a_const (v_arg v)))) eqn:Q; [reflexivity|].
  destruct D as [D|(Sh & Gx)].
  - exfalso. destruct (a_ref (v_arg v)), (a_const (v_arg v)); try discriminate; destruct D as [D|D]; congruence.
  - destruct (ref_eqb (a_ref (v_arg x)) RValue && negb (a_const (v_arg x))) eqn:G; [elim Gx; now apply gives_bool|].
    cbn [andb]. now rewrite (if_false shared _ _ Sh).
Qed.
End Shapes.
End Smart.
