(* PropValue.v - property theorems C14, C15, C52-C55: argument passing, const
   views, results, casts, copy/move and field access of Value handles.
   Statements use the entry points of ModelValue and the specification of
   SpecValue. *)
From Coq Require String.
Import String.StringSyntax.
From Coq Require Import Relations.
From Verif Require Import Base ModelCore SpecCore ProofCore ProofMatch ExCore ProofCore2 ModelValue SpecValue ProofValue.

(* ---- a concrete world ---- *)
(* exHeap plus: 10 Str2 with two conversions to int, 11 Full with copy and move
   constructors, 12 Pair with two fields *)
Definition valTypes : list typerec := exTypes ++
  [ Type_ (lit "Str2") None [] [] None []
      [ (lit "operator int()", [ Fn (lit "operator int()") (Arg 2 Copy false) [Arg 10 LValue true] 20;
                                 Fn (lit "operator int()") (Arg 2 Copy false) [Arg 10 LValue false] 21 ]) ];
    Type_ (lit "Full") None [] [] None []
      [ (lit "Full", [ Fn (lit "Full") (Arg 11 Copy false) [Arg 2 Copy false] 22;
                       Fn (lit "Full") (Arg 11 Copy false) [Arg 11 LValue true] 23;
                       Fn (lit "Full") (Arg 11 Copy false) [Arg 11 RValue false] 24 ]) ];
    Type_ (lit "Pair") None [] [] None
      [ (lit "a", Field (lit "a") (Arg 11 Copy false) 0 []); (lit "b", Field (lit "b") (Arg 4 Copy true) 16 []) ] [] ].
Definition valHeap : heap := Heap valTypes 0 1.
Lemma valHeap_wf : wf_heap valHeap.
Proof. apply wf_check_ok. reflexivity. Qed.
Definition exCpp : cpp :=
  Cpp (fun T => negb (Nat.eqb T 8)) (fun _ => true) (fun _ _ => (99, 0%N)) (fun _ _ => void_value valHeap).
Definition st0 : state := St 1000 [].

Ltac vld := unfold arg_valid, valid; cbn; lia.
Ltac nosub := let X := fresh in intro X; apply isChildOf_spec in X; [discriminate|apply valHeap_wf|vld..].
Ltac noconv := let X := fresh in intro X; apply hasConverter_spec in X; [discriminate|apply valHeap_wf|vld..].
Ltac sub := apply isChildOf_spec; [apply valHeap_wf|vld|vld|reflexivity].

Lemma base_plumbed C : C = 3 \/ C = 4 \/ C = 9 -> plumbed exCpp valHeap C 3.
Proof.
  intro HC. constructor; try (cbn; lia); try reflexivity; [|noconv].
  eexists _, _, 4. split; [reflexivity|]. split; [reflexivity|]. split; [repeat constructor; vld|].
  split; [right; left; reflexivity|]. split; [repeat constructor; cbn; intuition discriminate|].
  intros f p [<-|[<-|[]]] Ep; cbn in Ep; [discriminate|]. injection Ep as <-. left. split; [reflexivity|auto].
Qed.
Lemma full_plumbed : plumbed exCpp valHeap 11 11.
Proof.
  constructor; try (cbn; lia); try reflexivity; [|noconv].
  eexists _, _, 23. split; [reflexivity|]. split; [reflexivity|]. split; [repeat constructor; vld|].
  split; [right; left; reflexivity|]. split; [repeat constructor; cbn; intuition discriminate|].
  intros f p [<-|[<-|[<-|[]]]] Ep; cbn in Ep; injection Ep as <-.
  - right. cbn. split; [lia|]. split; [nosub|noconv].
  - left. split; [reflexivity|auto].
  - left. split; [reflexivity|auto].
Qed.
Lemma str_converts : conversion_ok exCpp valHeap 7 2.
Proof.
  repeat split; cbn; try lia; auto. exists 7. eexists _, _, 7. split; [reflexivity|]. split; [reflexivity|].
  split; [vld|]. split; [cbn; lia|]. split; [constructor|noconv].
Qed.

(* f(const Base&, Base, int, Unique&&, Value), given a Derived, a Derived handle, a Str, a temporary
   Unique and a Pair handle *)
Definition vf : fn := Fn (lit "f") (Arg 2 Copy false)
  [Arg 3 LValue true; Arg 3 Copy false; Arg 2 Copy false; Arg 8 RValue false; Arg 1 Copy false] 50.
Definition vargs : list carg :=
  [ CRaw (Arg 4 LValue false) (1, 0%N); CVal (Val (Arg 4 LValue true) (2, 8%N) false);
    CRaw (Arg 7 LValue true) (3, 0%N); CRaw (Arg 8 RValue false) (4, 0%N); CVal (Val (Arg 12 LValue false) (5, 0%N) true) ].
Lemma vargs_passable : Forall2 (passable exCpp valHeap) vargs (f_args vf).
Proof.
  unfold vf, vargs, passable. cbn [f_args carg_arg a_type a_ref a_const].
  assert (NV : forall k, k <> 1 -> k <> h_value valHeap) by (intros k X; exact X).
  constructor. { split; [cbn; intro; discriminate|]. split; [cbn; lia|]. right. split; [cbn; lia|cbn; exact I]. }
  constructor. { split; [exact I|]. split; [cbn; lia|]. right. split; [cbn; lia|]. left. cbn. split; [sub|]. split; [noconv|].
                 apply base_plumbed; auto. }
  constructor. { split; [cbn; intro; discriminate|]. split; [cbn; lia|]. right. split; [cbn; lia|]. right. cbn.
                 split; [nosub|]. split; [reflexivity|apply str_converts]. }
  constructor. { split; [cbn; reflexivity|]. split; [cbn; lia|]. right. split; [cbn; lia|]. cbn.
                 split; [reflexivity|]. split; [reflexivity|]. left. constructor. }
  constructor; [|constructor]. split; [exact I|]. split; [cbn; lia|]. left. split; reflexivity.
Qed.

(* ===== C14 ===== *)
Theorem c14_accepted_call_marshals : forall n E H st f ret cs g,
  wf_heap H -> h_value H <> h_void H -> fn_valid H f -> Forall (fun c => arg_valid H (carg_arg c)) cs ->
  Forall2 (passable E H) cs (f_args f) -> returnable E H f ->
  test_sig H f ret (map carg_arg cs) = Ok g -> g <> MNone ->
  exists vs st1 qs st2 r st3,
    CarriedAll st cs vs st1 /\ PassedAll H st1 vs (f_args f) qs st2 /\ Returned E H f qs st2 r st3 /\
    call_fn (S (S n)) E H st f ret cs = Ok (r, st3).
Proof. exact call_fn_ok. Qed.
Print Assumptions c14_accepted_call_marshals.

(* a call that is not accepted never reaches the callable *)
Theorem c14_rejected_call_aborts : forall n E H st f ret cs,
  test_sig H f ret (map carg_arg cs) = Ok MNone -> call_fn n E H st f ret cs = Abort.
Proof. intros n E H st f ret cs T. unfold call_fn. rewrite T. reflexivity. Qed.
Print Assumptions c14_rejected_call_aborts.

Example c14_ex : wf_heap valHeap /\ fn_valid valHeap vf /\ Forall2 (passable exCpp valHeap) vargs (f_args vf) /\
  returnable exCpp valHeap vf /\ test_sig valHeap vf (ret_value valHeap) (map carg_arg vargs) = Ok MPartial /\
  call_fn 2 exCpp valHeap st0 vf (ret_value valHeap) vargs =
  Ok (Val (Arg 2 LValue false) (1003, 0%N) true,
      St 1004 [ (4, [PRef (2, 8%N)]); (7, [PRef (3, 0%N)]);
                (50, [PRef (1, 0%N); PCopy (1001, 0%N); PCopy (1002, 0%N); PMove (1000, 0%N);
                      PVal (Val (Arg 12 LValue false) (5, 0%N) true)]) ]).
Proof.
  split; [apply valHeap_wf|]. split; [repeat constructor; vld|]. split; [apply vargs_passable|].
  split; [intros _ _ _; reflexivity|]. split; reflexivity.
Qed.

(* without the provisos accepted calls abort: whatever the nesting allowed *)
Definition c14_fails (f : fn) (c : carg) : Prop :=
  fn_valid valHeap f /\ arg_valid valHeap (carg_arg c) /\
  (exists g, test_sig valHeap f (ret_value valHeap) [carg_arg c] = Ok g /\ g <> MNone) /\
  forall n, call_fn (S n) exCpp valHeap st0 f (ret_value valHeap) [c] = Abort.
(* a by-value parameter of a move-only type, even given a temporary *)
Theorem c14_move_only_by_value_refuted :
  c14_fails (Fn (lit "f") (Arg 2 Copy false) [Arg 8 Copy false] 50) (CRaw (Arg 8 RValue false) (1, 0%N)).
Proof. split; [repeat constructor; vld|]. split; [vld|]. split; [eexists; split; [reflexivity|discriminate]|]. intro n. reflexivity. Qed.
Print Assumptions c14_move_only_by_value_refuted.
(* a T&& parameter of a type with no reflected move constructor *)
Theorem c14_rvalue_of_unmovable_refuted :
  c14_fails (Fn (lit "f") (Arg 2 Copy false) [Arg 5 RValue false] 50) (CRaw (Arg 5 RValue false) (1, 0%N)).
Proof. split; [repeat constructor; vld|]. split; [vld|]. split; [eexists; split; [reflexivity|discriminate]|]. intro n. reflexivity. Qed.
Print Assumptions c14_rvalue_of_unmovable_refuted.
(* a conversion with two overloads *)
Theorem c14_two_conversions_refuted :
  c14_fails (Fn (lit "f") (Arg 2 Copy false) [Arg 2 Copy false] 50) (CRaw (Arg 10 LValue false) (1, 0%N)).
Proof. split; [repeat constructor; vld|]. split; [vld|]. split; [eexists; split; [reflexivity|discriminate]|]. intro n. reflexivity. Qed.
Print Assumptions c14_two_conversions_refuted.
(* a handle to a Value object (e.g. a field of type Value) *)
Theorem c14_nested_value_refuted :
  c14_fails (Fn (lit "f") (Arg 2 Copy false) [Arg 3 LValue true] 50) (CVal (Val (Arg 1 LValue false) (1, 0%N) false)).
Proof. split; [repeat constructor; vld|]. split; [vld|]. split; [eexists; split; [reflexivity|discriminate]|]. intro n. reflexivity. Qed.
Print Assumptions c14_nested_value_refuted.
(* a parameter of type const Value& *)
Theorem c14_value_reference_refuted :
  c14_fails (Fn (lit "f") (Arg 2 Copy false) [Arg 1 LValue true] 50) (CVal (Val (Arg 2 LValue false) (1, 0%N) false)).
Proof. split; [repeat constructor; vld|]. split; [vld|]. split; [eexists; split; [reflexivity|discriminate]|]. intro n. reflexivity. Qed.
Print Assumptions c14_value_reference_refuted.

(* ===== C15 ===== *)
Theorem c15_views_stay_const : forall E H v w, views E H v w -> a_const (v_arg v) = true ->
  a_const (v_arg w) = true /\ fst (v_addr w) = fst (v_addr v).
Proof. exact views_const. Qed.
Print Assumptions c15_views_stay_const.

Theorem c15_toConst : forall v, a_const (v_arg (toConst v)) = true /\ v_type (toConst v) = v_type v /\
  v_addr (toConst v) = v_addr v.
Proof. intro v. repeat split. Qed.
Print Assumptions c15_toConst.

Theorem c15_no_mutable_reference : forall n E H st v w T, wf_heap H -> views E H v w -> a_const (v_arg v) = true ->
  valid H (v_type w) -> valid H T -> cast_f (S n) E H st w (Arg T LValue false) = Abort.
Proof.
  intros n E H st v w T W Vs C Vw VT. apply cast_lref_const; auto.
  exact (proj1 (views_const E H v w Vs C)).
Qed.
Print Assumptions c15_no_mutable_reference.

(* nor through a call: neither a T& nor a T&& parameter accepts it *)
Theorem c15_no_mutable_parameter : forall E H v w p m, wf_heap H -> views E H v w -> a_const (v_arg v) = true ->
  valid H (v_type w) -> arg_valid H p -> v_type w <> h_value H -> a_type p <> h_value H ->
  ~ has_user_conversion H (v_type w) (a_type p) ->
  isConvertibleTo H (v_arg w) p = Ok m -> m <> MNone -> a_ref p = Copy \/ a_const p = true.
Proof.
  intros E H v w p m W Vs C Vw Vp Nw Np Nc Em Nm.
  destruct (a_ref p) eqn:Er; [now left|right; eapply (c02_const H (v_arg w) p m); eauto..];
    exact (proj1 (views_const E H v w Vs C)).
Qed.
Print Assumptions c15_no_mutable_parameter.

Example c15_ex : let v := Val (Arg 12 LValue true) (7, 0%N) false in
  exists w, views exCpp valHeap v w /\ w = Val (Arg 2 LValue true) (7, 16%N) false /\
    cast_f 1 exCpp valHeap st0 w (Arg 2 LValue false) = Abort /\ cast_f 1 exCpp valHeap st0 w (Arg 2 LValue true) = Ok (w, st0).
Proof.
  intro v. eexists. split; [|split; [reflexivity|split; reflexivity]].
  eapply Relation_Operators.rt1n_trans; [apply View_rvalue|]. eapply Relation_Operators.rt1n_trans; [eapply (View_field _ _ _ (lit "b")); reflexivity|].
  eapply Relation_Operators.rt1n_trans; [apply View_const|]. eapply Relation_Operators.rt1n_trans; [eapply (View_cast_ref _ _ 1 st0 _ (Arg 3 LValue true)); reflexivity|].
  eapply Relation_Operators.rt1n_trans; [eapply (View_field _ _ _ (lit "x")); reflexivity|]. apply Relation_Operators.rt1n_refl.
Qed.

(* casting a const lvalue handle to T&& is accepted, and moves from the object *)
Theorem c15_rvalue_cast_refuted : exists H v, wf_heap H /\ a_const (v_arg v) = true /\ a_ref (v_arg v) = LValue /\
  forall n st, pass (S n) exCpp H st v (Arg (v_type v) RValue false) = Ok (PMove (v_addr v), st).
Proof.
  exists valHeap, (Val (Arg 11 LValue true) (7, 0%N) false). split; [apply valHeap_wf|]. repeat split.
Qed.
Print Assumptions c15_rvalue_cast_refuted.

(* as<T>() hands out a mutable reference whatever the handle *)
Theorem c15_as_refuted : forall H v T, wf_heap H -> valid H (v_type v) -> valid H T ->
  Subtype H (v_type v) T -> value_as H (toConst v) T = Ok (v_addr v).
Proof. intros H v T W Vv VT S. exact (value_as_ok H (toConst v) T W Vv VT S). Qed.
Print Assumptions c15_as_refuted.

(* ... but only to an object of that type or of a class derived from it; any other
   access is reported. *)
Theorem c15_as_checked : forall H v T, wf_heap H -> valid H (v_type v) -> valid H T ->
  (Subtype H (v_type v) T /\ value_as H v T = Ok (v_addr v)) \/
  (~ Subtype H (v_type v) T /\ value_as H v T = Abort).
Proof.
  intros H v T W V1 V2. unfold value_as.
  destruct (c01_iff H (v_type v) T W V1 V2) as [(S1 & E & _)|(S1 & E & _)]; rewrite E; cbn [bind]; auto.
Qed.
Print Assumptions c15_as_checked.
Example c15_as_ex : value_as valHeap (Val (Arg 12 LValue true) (7, 0%N) false) 12 = Ok (7, 0%N) /\
  value_as valHeap (Val (Arg 12 LValue true) (7, 0%N) false) 2 = Abort.
Proof. split; reflexivity. Qed.

(* ===== C52: the result of an accepted call ===== *)
Theorem c52_accepted_call_returns : forall n E H st f ret cs g,
  wf_heap H -> h_value H <> h_void H -> fn_valid H f -> arg_valid H ret ->
  Forall (fun c => arg_valid H (carg_arg c)) cs ->
  Forall2 (passable E H) cs (f_args f) -> returnable E H f -> result_ok E H (f_ret f) ret ->
  test_sig H f ret (map carg_arg cs) = Ok g -> g <> MNone ->
  exists vs st1 qs st2 r st3 oq st4,
    CarriedAll st cs vs st1 /\ PassedAll H st1 vs (f_args f) qs st2 /\ Returned E H f qs st2 r st3 /\
    ((a_type ret = h_void H /\ oq = None /\ st4 = st3) \/
     (a_type ret <> h_void H /\ exists q, oq = Some q /\ Passed H st3 r ret q st4)) /\
    call_ret (S (S n)) E H st f ret cs = Ok (oq, st4).
Proof. exact call_ret_ok. Qed.
Print Assumptions c52_accepted_call_returns.

(* Derived& g(Derived&) asked for as const Base&: the object itself *)
Example c52_ex : let f := Fn (lit "g") (Arg 4 LValue false) [Arg 4 LValue false] 51 in
  let cs := [CRaw (Arg 4 LValue false) (1, 0%N)] in
  result_ok exCpp valHeap (f_ret f) (Arg 3 LValue true) /\ returnable exCpp valHeap f /\
  test_sig valHeap f (Arg 3 LValue true) (map carg_arg cs) = Ok MExact /\
  call_ret 2 exCpp valHeap st0 f (Arg 3 LValue true) cs = Ok (Some (PRef (99, 0%N)), St 1000 [(51, [PRef (1, 0%N)])]) /\
  call_ret 2 exCpp valHeap st0 f (Arg 0 Copy false) cs = Ok (None, St 1000 [(51, [PRef (1, 0%N)])]).
Proof.
  split; [right; right; cbn; auto 10|]. split; [intros _ _ X; exfalso; now apply X|]. repeat split.
Qed.

(* a move-only result returned by value cannot be received *)
Theorem c52_move_only_result_refuted : exists H f, wf_heap H /\ fn_valid H f /\ returnable exCpp H f /\
  f_args f = [] /\ test_sig H f (f_ret f) [] = Ok MExact /\
  forall n st, call_ret (S n) exCpp H st f (f_ret f) [] = Abort.
Proof.
  exists valHeap, (Fn (lit "make") (Arg 8 Copy false) [] 52). split; [apply valHeap_wf|].
  split; [repeat constructor; vld|]. split; [intros _ _ _; reflexivity|]. repeat split.
Qed.
Print Assumptions c52_move_only_result_refuted.

(* ===== C53: isCastable and cast ===== *)
Theorem c53_reference_casts_agree : forall n E H st v t, wf_heap H -> valid H (v_type v) -> arg_valid H t ->
  v_type v <> h_value H -> a_type t <> h_value H -> ~ has_user_conversion H (v_type v) (a_type t) ->
  a_ref t = LValue ->
  (isCastable H v t = Ok true /\ cast_f (S n) E H st v t = Ok (v, st)) \/
  (isCastable H v t = Ok false /\ cast_f (S n) E H st v t = Abort).
Proof.
  intros n E H st v t W Vv Vt Nv Nt Nc Er.
  destruct (isConvertibleTo_total H (v_arg v) t W Vv Vt) as [m Em].
  unfold isCastable. rewrite Em. cbn [bind].
  assert (G := Em). apply isConvertibleTo_iff_Grade in G; auto.
  assert (Nov : ~ one_is_value H (v_arg v) t) by (intros [[X _]|[_ X]]; contradiction).
  assert (Bad : ~ (legal_binding (v_arg v) t /\ Subtype H (v_type v) (a_type t)) -> cast_f (S n) E H st v t = Abort).
  { intro X. cbn [cast_f]. rewrite Er. unfold lref, isParentOf.
    destruct (isChildOf_total H (v_type v) (a_type t) W Vv Vt) as [[|] Hc]; rewrite Hc; cbn; auto.
    apply isChildOf_spec in Hc; auto. unfold legal_binding in X. rewrite Er in X.
    destruct (a_const t); [exfalso; apply X; auto|].
    destruct (a_const (v_arg v)); [reflexivity|]. cbn. destruct (a_ref (v_arg v)); cbn; auto. exfalso. apply X; auto. }
  assert (Good : legal_binding (v_arg v) t -> Subtype H (v_type v) (a_type t) -> cast_f (S n) E H st v t = Ok (v, st)).
  { intros L S. apply cast_lref; auto. unfold legal_binding in L. rewrite Er in L. intro X. destruct L as [L|L]; [congruence|exact L]. }
  destruct G as [Eq|Ne Ov|Ne _ C Nr|Ne _ C Nr|Ne _ _ Il|Ne _ _ L S _|Ne _ _ L S _]; try contradiction.
  - left. split; [reflexivity|]. apply Good.
    + unfold legal_binding. rewrite Er, Eq, Er. destruct (a_const t); auto.
    + unfold v_type. rewrite Eq. constructor.
  - right. split; [reflexivity|]. now apply Bad.
  - left. split; [reflexivity|]. now apply Good.
  - left. split; [reflexivity|]. now apply Good.
Qed.
Print Assumptions c53_reference_casts_agree.

Theorem c53_castable_rvalue_casts : forall n E H st v t, wf_heap H -> valid H (v_type v) -> arg_valid H t ->
  v_type v <> h_value H -> a_type t <> h_value H -> ~ has_user_conversion H (v_type v) (a_type t) ->
  a_ref t = RValue -> isMovable H (a_type t) = Ok true ->
  isCastable H v t = Ok true -> cast_f (S n) E H st v t = Ok (v, st).
Proof.
  intros n E H st v t W Vv Vt Nv Nt Nc Er Hm Hk. apply cast_rref; auto.
  unfold isCastable in Hk. destruct (isConvertibleTo H (v_arg v) t) as [m| | | |] eqn:Em; try discriminate. cbn in Hk.
  eapply (binding_subtype H (v_arg v) t m); eauto.
  - intros ->. discriminate.
  - apply no_conv_false; auto.
Qed.
Print Assumptions c53_castable_rvalue_casts.

(* casting to a copy of a type that cannot be copied is always reported *)
Theorem c53_uncopiable_copy_reported : forall n E H st v T c, T <> h_value H -> isCopiable H T = Ok false ->
  cast_f (S n) E H st v (Arg T Copy c) = Abort.
Proof.
  intros n E H st v T c NT Hc. cbn [cast_f a_ref a_type]. rewrite (nat_eqb_neq _ _ NT) || idtac. rewrite Hc. reflexivity.
Qed.
Print Assumptions c53_uncopiable_copy_reported.
Example c53_uncopiable_ex : 8 <> h_value valHeap /\ isCopiable valHeap 8 = Ok false /\
  cast_f 1 exCpp valHeap st0 (Val (Arg 8 LValue false) (7, 0%N) false) (Arg 8 Copy false) = Abort.
Proof. split; [discriminate|]. split; reflexivity. Qed.

Theorem c53_castable_copy_casts : forall n E H st v T c, wf_heap H -> h_value H <> h_void H -> valid H (v_type v) -> valid H T ->
  v_type v <> h_value H -> ~ has_user_conversion H (v_type v) T -> plumbed E H (v_type v) T ->
  (isCastable H v (Arg T Copy c) = Ok true /\
     exists w st', cast_f (S (S n)) E H st v (Arg T Copy c) = Ok (w, st') /\
       v_type w = T /\ a_const (v_arg w) = false /\ v_addr w = (st_next st, 0%N)) \/
  (isCastable H v (Arg T Copy c) = Ok false /\ cast_f (S (S n)) E H st v (Arg T Copy c) = Abort).
Proof.
  intros n E H st v T c W D Vv VT Nv Nc PL.
  assert (NT : T <> h_value H) by (eapply pl_value; eauto).
  destruct (isChildOf_total H (v_type v) T W Vv VT) as [[|] Hc].
  - apply isChildOf_spec in Hc; auto. left. split.
    + unfold isCastable. destruct (related_grade H (v_arg v) (Arg T Copy c) W Vv VT Nv NT Hc Nc I) as [[-> _]|[-> _]]; reflexivity.
    + destruct (cast_f_copy_child n E H st v T c W D Vv Nv PL Hc Nc) as (code & q & _ & _ & ->).
      eexists _, _. split; [reflexivity|]. repeat split.
  - assert (Ns := Hc). apply isChildOf_spec_false in Ns; auto. right. split.
    + unfold isCastable. rewrite (unrelated_none H (v_arg v) (Arg T Copy c)); auto.
    + cbn [cast_f a_ref a_type].
      destruct (pl_type _ _ _ _ PL) as (t & fns & code & Et & Ef & Vf & Icp & _).
      rewrite (proj1 (c13_ctor H T t fns code LValue W Et (pl_void _ _ _ _ PL) NT (pl_conv _ _ _ _ PL) Ef Vf Icp)).
      cbn [bind negb]. rewrite Hc. cbn [bind]. rewrite (no_conv_false H _ _ W Vv VT Nc). reflexivity.
Qed.
Print Assumptions c53_castable_copy_casts.

Example c53_ex : let v := Val (Arg 4 LValue false) (7, 0%N) false in
  isCastable valHeap v (Arg 3 LValue false) = Ok true /\ isCastable valHeap (toConst v) (Arg 3 LValue false) = Ok false /\
  isCastable valHeap (rvalue v) (Arg 3 RValue false) = Ok true /\ isMovable valHeap 3 = Ok true /\
  isCastable valHeap v (Arg 11 Copy false) = Ok false.
Proof. repeat split. Qed.

(* towards T&& cast accepts handles isCastable refuses *)
Theorem c53_rvalue_cast_more_permissive_refuted : exists H v t, wf_heap H /\
  isCastable H v t = Ok false /\ forall n st, cast_f (S n) exCpp H st v t = Ok (v, st).
Proof.
  exists valHeap, (Val (Arg 11 LValue false) (7, 0%N) false), (Arg 11 RValue false).
  split; [apply valHeap_wf|]. repeat split.
Qed.
Print Assumptions c53_rvalue_cast_more_permissive_refuted.

(* ===== C54: copy() and move() ===== *)
(* the constructed copy: a fresh, owned, mutable object of the same type *)
Definition fresh_copy (v : value) (st : state) (w : value) : Prop :=
  v_type w = v_type v /\ a_const (v_arg w) = false /\ a_ref (v_arg w) = LValue /\
  v_stored w = true /\ v_addr w = (st_next st, 0%N).
Definition has_move_ctor (H : heap) (T : tptr) : Prop :=
  exists t fns mv, tget H T = Some t /\ function H T (t_id t) = Ok fns /\ In mv fns /\ f_args mv = [Arg T RValue false].

Theorem c54_copy : forall n E H st v, wf_heap H -> h_value H <> h_void H -> valid H (v_type v) ->
  plumbed E H (v_type v) (v_type v) ->
  exists w code q, value_copy (S n) E H st v = Ok (w, St (S (st_next st)) (st_log st ++ [(code, [q])])) /\
    fresh_copy v st w /\ ctor_code H (v_type v) code /\
    (a_ref (v_arg v) <> RValue \/ a_const (v_arg v) = true -> q = PRef (v_addr v)) /\
    (q = PRef (v_addr v) \/ q = PMove (v_addr v)).
Proof.
  intros n E H st v W D Vv PL.
  destruct (construct_ok n E H st v W D Vv PL) as (code & q & Hc & Hq & Hm & Ec).
  exists (fresh_of (v_type v) st), code, q. split.
  - unfold value_copy.
    destruct (pl_type _ _ _ _ PL) as (t & fns & code0 & Et & Ef & Vf & Icp & _).
    rewrite (proj1 (c13_ctor H _ t fns code0 LValue W Et (pl_void _ _ _ _ PL) (pl_value _ _ _ _ PL) (pl_conv _ _ _ _ PL) Ef Vf Icp)).
    cbn [bind negb]. exact Ec.
  - split; [repeat split|]. split; [exact Hc|]. split.
    + intros X. destruct Hq as [Hq|(_ & Y & Z)]; auto. destruct X; congruence.
    + destruct Hq as [Hq|(Hq & _)]; auto.
Qed.
Print Assumptions c54_copy.

Theorem c54_move : forall n E H st v, wf_heap H -> h_value H <> h_void H -> valid H (v_type v) ->
  plumbed E H (v_type v) (v_type v) ->
  exists w code q,
    value_move (S n) E H st v = (Ok (w, St (S (st_next st)) (st_log st ++ [(code, [q])])), void_value H) /\
    fresh_copy v st w /\ ctor_code H (v_type v) code /\
    (a_const (v_arg v) = true -> q = PRef (v_addr v)) /\
    (a_const (v_arg v) = false -> has_move_ctor H (v_type v) -> q = PMove (v_addr v)).
Proof.
  intros n E H st v W D Vv PL.
  destruct (construct_ok n E H st (rvalue v) W D Vv PL) as (code & q & Hc & Hq & Hm & Ec).
  exists (fresh_of (v_type v) st), code, q. split.
  - unfold value_move.
    destruct (pl_type _ _ _ _ PL) as (t & fns & code0 & Et & Ef & Vf & Icp & _).
    rewrite (proj2 (c13_ctor H _ t fns code0 LValue W Et (pl_void _ _ _ _ PL) (pl_value _ _ _ _ PL) (pl_conv _ _ _ _ PL) Ef Vf Icp)).
    f_equal. exact Ec.
  - split; [repeat split|]. split; [exact Hc|]. split.
    + intros X. destruct Hq as [Hq|(_ & _ & Z)]; auto. cbn in Z. congruence.
    + intros X Y. now apply Hm.
Qed.
Print Assumptions c54_move.

Theorem c54_not_movable_keeps_handle : forall n E H st v, isMovable H (v_type v) = Ok false ->
  value_move n E H st v = (Abort, v) .
Proof. intros n E H st v X. unfold value_move. now rewrite X. Qed.
Print Assumptions c54_not_movable_keeps_handle.

Theorem c54_not_copiable : forall n E H st v, isCopiable H (v_type v) = Ok false -> value_copy n E H st v = Abort.
Proof. intros n E H st v X. unfold value_copy. now rewrite X. Qed.
Print Assumptions c54_not_copiable.

Example c54_ex : let v := Val (Arg 11 LValue false) (7, 0%N) false in
  plumbed exCpp valHeap (v_type v) (v_type v) /\ has_move_ctor valHeap (v_type v) /\
  value_copy 1 exCpp valHeap st0 v = Ok (Val (Arg 11 LValue false) (1000, 0%N) true, St 1001 [(23, [PRef (7, 0%N)])]) /\
  value_move 1 exCpp valHeap st0 v = (Ok (Val (Arg 11 LValue false) (1000, 0%N) true, St 1001 [(24, [PMove (7, 0%N)])]), void_value valHeap).
Proof.
  split; [apply full_plumbed|]. split; [|split; reflexivity].
  eexists _, _, _. split; [reflexivity|]. split; [reflexivity|]. split; [right; right; left; reflexivity|reflexivity].
Qed.

(* copy() of an rvalue view moves from the object *)
Theorem c54_copy_of_rvalue_moves_refuted : exists H v, wf_heap H /\ plumbed exCpp H (v_type v) (v_type v) /\
  exists w code, value_copy 1 exCpp H st0 (rvalue v) = Ok (w, St 1001 [(code, [PMove (v_addr v)])]).
Proof.
  exists valHeap, (Val (Arg 11 LValue false) (7, 0%N) false). split; [apply valHeap_wf|].
  split; [apply full_plumbed|]. eexists _, _. reflexivity.
Qed.
Print Assumptions c54_copy_of_rvalue_moves_refuted.

(* move() of a const handle on a move-only object fails and still empties the handle *)
Theorem c54_failed_move_loses_handle_refuted : exists H v, wf_heap H /\ isMovable H (v_type v) = Ok true /\
  forall n st, value_move (S n) exCpp H st v = (Abort, void_value H).
Proof.
  exists valHeap, (Val (Arg 8 LValue true) (7, 0%N) true). split; [apply valHeap_wf|]. repeat split.
Qed.
Print Assumptions c54_failed_move_loses_handle_refuted.

(* ===== C55: field access ===== *)
(* following a path of field names from an object of type T: the type reached,
   the summed offsets, and whether some field on the way is declared const *)
Inductive FieldPath (H : heap) : tptr -> list str -> tptr -> N -> bool -> Prop :=
| FP_nil T : FieldPath H T [] T 0 false
| FP_cons T n f ns U off c : Nearest H t_fields n T f -> FieldPath H (a_type (fd_arg f)) ns U off c ->
    FieldPath H T (n :: ns) U (fd_offset f + off) (a_const (fd_arg f) || c).
Lemma FieldPath_cons_inv H T n ns U o b : FieldPath H T (n :: ns) U o b ->
  exists f off c, Nearest H t_fields n T f /\ FieldPath H (a_type (fd_arg f)) ns U off c /\
    o = (fd_offset f + off)%N /\ b = a_const (fd_arg f) || c.
Proof. intro F. inversion F; subst. eauto 10. Qed.
Fixpoint follow (H : heap) (v : value) (ns : list str) : outcome value :=
  match ns with
  | [] => Ok v
  | n :: ns' => bind (value_field H v n) (fun w => follow H w ns')
  end.

Theorem c55_field_path : forall H ns v U off c, wf_heap H -> valid H (v_type v) ->
  (forall T n f, Nearest H t_fields n T f -> arg_valid H (fd_arg f)) ->
  FieldPath H (v_type v) ns U off c ->
  exists w, follow H v ns = Ok w /\ v_type w = U /\
    v_addr w = (fst (v_addr v), (snd (v_addr v) + off)%N) /\
    a_const (v_arg w) = (a_const (v_arg v) || c) /\ (ns <> [] -> a_ref (v_arg w) = LValue).
Proof.
  intros H ns. induction ns as [|n ns IH]; intros v U off c W Vv Vf FP.
  - inversion FP; subst. exists v. cbn. rewrite N.add_0_r, orb_false_r. destruct v as [a [o x] s]. repeat split. intro X; congruence.
  - apply FieldPath_cons_inv in FP as (f & off0 & c0 & Nf & FP' & -> & ->). cbn [follow].
    destruct (c11_fields H (v_type v) n W Vv) as [(_ & _ & f' & Ef & Nf')|(_ & Hn & _)].
    2:{ exfalso. apply Hn. clear - Nf. induction Nf as [a t x Et Ex|a t p x Et Ni Ep Nf IH].
        - exists a. split; [constructor|]. exists t. split; auto. apply afind_In in Ex. apply in_map_iff. eexists (_, _). split; [|exact Ex]. reflexivity.
        - destruct IH as (c & A & B). exists c. split; auto. econstructor; [|exact A]. exists t. auto. }
    assert (f' = f) by (eapply Nearest_fun; eauto). subst f'.
    unfold value_field. rewrite Ef. cbn [bind].
    match goal with |- exists w, follow H ?x ns = _ /\ _ => set (u := x) end.
    destruct (IH u U off0 c0 W) as (w & Ew & Tw & Aw & Cw & Rw); auto.
    + exact (Vf _ _ _ Nf).
    + exists w. split; [exact Ew|]. split; [exact Tw|]. split; [rewrite Aw; cbn; f_equal; lia|].
      split.
      * rewrite Cw. cbn. destruct (a_const (fd_arg f)), (a_const (v_arg v)), c0; reflexivity.
      * intros _. destruct ns as [|n' ns]; [cbn in Ew; injection Ew as <-; reflexivity|]. apply Rw. discriminate.
Qed.
Print Assumptions c55_field_path.

Theorem c55_unknown_field : forall H v n, wf_heap H -> valid H (v_type v) ->
  ~ (exists c, ancestor H (v_type v) c /\ declares_field H c n) -> value_field H v n = Abort.
Proof.
  intros H v n W Vv Nf. destruct (c11_fields H (v_type v) n W Vv) as [(_ & X & _)|(_ & _ & X)]; [contradiction|].
  unfold value_field. now rewrite X.
Qed.
Print Assumptions c55_unknown_field.

Example c55_ex : FieldPath valHeap 12 [lit "b"; lit "y"] 2 24 true /\
  follow valHeap (Val (Arg 12 LValue false) (7, 100%N) true) [lit "b"; lit "y"] =
    Ok (Val (Arg 2 LValue true) (7, 124%N) false).
Proof.
  split; [|reflexivity].
  change 24%N with (16 + (8 + 0))%N. change true with (true || (false || false)).
  eapply (FP_cons valHeap 12 (lit "b") (Field (lit "b") (Arg 4 Copy true) 16 [])).
  - eapply Near_here; reflexivity.
  - eapply (FP_cons valHeap 4 (lit "y") (Field (lit "y") (Arg 2 Copy false) 8 [])).
    + eapply Near_here; reflexivity.
    + apply FP_nil.
Qed.
