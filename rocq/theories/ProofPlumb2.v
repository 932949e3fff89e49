(* ProofPlumb2.v - plumbing: acceptance, constructor and assignment choice. *)
From Coq Require String.
Import String.StringSyntax.
From Coq Require Import Permutation Relations.
From Verif Require Import Base ModelCore SpecCore ProofCore ProofMatch ProofCore2 ModelPlumb SpecPlumb ProofPlumb ModelValue SpecValue ProofValue.
Local Open Scope outcome_scope.

Ltac sep_same := cbn; split; [reflexivity|]; intros [[]|[]]; discriminate.
Ltac sep := first
  [ left; cbn; discriminate
  | right; exists 0; do 2 eexists; split; [reflexivity|]; split; [reflexivity|]; left; sep_same
  | right; exists 1; do 2 eexists; split; [reflexivity|]; split; [reflexivity|]; left; sep_same ].
Ltac pair_tac := cbn; try exact I; try discriminate; try (intro; first [discriminate | congruence | exfalso; congruence | sep]).

Ltac fop := repeat (apply FOP_cons; [repeat apply Forall_cons; try apply Forall_nil; pair_tac|]); apply FOP_nil.

Lemma plumbing_all_pairs H T id rs b : id <> lit "operator=" ->
  ForallOrdPairs (before H T rs) (plumbing id T all_caps b).
Proof. intro N. cbn -[lit]. fop. Qed.

Lemma plumbing_sigs H T id k b n ret args code : valid H T -> In (RFn n ret args code) (plumbing id T k b) ->
  arg_valid H ret /\ Forall (arg_valid H) args.
Proof.
  intros V I. apply (sub_body_In _ _ _ (plumbing_sub id T k b)) in I. cbn -[lit] in I.
  repeat destruct I as [I|I]; try discriminate; try contradiction; injection I as <- <- <- <-;
    (split; [exact V|repeat constructor; exact V]).
Qed.
Lemma plumbing_no_pointer id T k b k' p : ~ In (RPointer k' p) (plumbing id T k b).
Proof.
  intro I. apply (sub_body_In _ _ _ (plumbing_sub id T k b)) in I. cbn -[lit] in I.
  repeat destruct I as [I|I]; try discriminate; try contradiction.
Qed.
Lemma plumbing_traits id T k b n : In (RTrait n) (plumbing id T k b) -> n = lit "sizeof".
Proof.
  intro I. apply (sub_body_In _ _ _ (plumbing_sub id T k b)) in I. cbn -[lit] in I.
  repeat destruct I as [I|I]; try discriminate; try contradiction. congruence.
Qed.

Lemma plumbing_loadable H T id k b : wf_heap H -> fresh H T id -> id <> lit "operator=" ->
  loadable H T id (plumbing id T k b).
Proof.
  intros W F N. pose proof (tget_valid _ _ _ F) as V.
  apply (loadable_sub _ _ _ _ _ (plumbing_sub id T k b)). constructor; auto.
  - intros. eapply plumbing_sigs; eauto.
  - intros k0 p I. now apply plumbing_no_pointer in I.
  - intro I. apply plumbing_traits in I. discriminate.
  - now apply plumbing_all_pairs.
Qed.

(* ---- lookups on a loaded type ---- *)

Lemma carries_function H T id rs n : carries H T id rs -> wf_heap H ->
  (fns_of n rs <> [] -> function H T n = Ok (fns_of n rs) /\ hasFunction H T n = Ok true) /\
  (fns_of n rs = [] -> function H T n = Abort /\ hasFunction H T n = Ok false).
Proof.
  intros (t & E & E1 & E2 & E3 & E4 & E5 & E6 & E7) W. specialize (E7 n).
  unfold function, hasFunction, fuel_of. cbn [function_f hasFunction_f]. rewrite E. unfold ahas. rewrite E7, E2.
  destruct (fns_of n rs); split; intro; try congruence; auto.
Qed.

Lemma carries_ancestor H T id rs c : carries H T id rs -> ancestor H T c -> c = T.
Proof.
  intros (t & E & E1 & E2 & _) A. inversion A as [|y z P]; subst; auto.
  destruct P as (u & Eu & Pu). congruence.
Qed.
Lemma In_afind {V} n (m : list (str * V)) : In n (map fst m) -> exists v, afind n m = Some v.
Proof.
  induction m as [|[k v] m IH]; cbn; [intros []|]. intros [<-|I].
  - rewrite str_eqb_refl. eauto.
  - destruct (str_eqb n k); eauto.
Qed.
Lemma carries_conversion H T id rs u : carries H T id rs -> tget H u <> None -> 
  has_user_conversion H T u -> exists tu ret args code, tget H u = Some tu /\
    In (RFn (converterName (t_id tu)) ret args code) rs.
Proof.
  intros C _ (tb & c & Eb & A & (tc & Ec & I)). assert (c = T) as -> by (eapply carries_ancestor; eauto).
  destruct C as (t & E & E1 & E2 & E3 & E4 & E5 & E6 & E7).
  assert (tc = t) as -> by congruence. apply In_afind in I as [os Eo].
  fold (converterName (t_id tb)) in Eo. rewrite E7 in Eo.
  destruct (fns_of (converterName (t_id tb)) rs) as [|f l] eqn:Ef; [discriminate|].
  assert (If : In f (fns_of (converterName (t_id tb)) rs)) by (rewrite Ef; now left).
  apply In_fns_of in If as (ret & args & code & If & _). eauto 6.
Qed.

Lemma converterName_neq_id id : converterName id <> id.
Proof.
  intro E. apply (f_equal (@length _)) in E. unfold converterName in E. rewrite !app_length in E. cbn in E. lia.
Qed.
Lemma converterName_neq_assign id : converterName id <> lit "operator=".
Proof. intro E. discriminate E. Qed.

Lemma plumbing_names id T k b n ret args code : In (RFn n ret args code) (plumbing id T k b) ->
  n = id \/ n = lit "operator=".
Proof.
  intro I. apply (sub_body_In _ _ _ (plumbing_sub id T k b)) in I. cbn -[lit] in I.
  repeat destruct I as [I|I]; try discriminate; try contradiction; injection I as <- _ _ _; auto.
Qed.

Lemma plumbing_no_conversion H T id k b : carries H T id (plumbing id T k b) -> ~ has_user_conversion H T T.
Proof.
  intros C A. pose proof C as (t & E & E1 & _).
  destruct (carries_conversion _ _ _ _ T C) as (tu & ret & args & code & Eu & I); [congruence|auto|].
  assert (tu = t) as -> by congruence. rewrite E1 in I. apply plumbing_names in I as [I|I].
  - now apply converterName_neq_id in I.
  - now apply converterName_neq_assign in I.
Qed.

(* grade of an argument of type T for a parameter of type T *)
Definition same_grade (a t : argument) : grade :=
  if ref_eqb (a_ref a) (a_ref t) && Bool.eqb (a_const a) (a_const t) then MExact else
  match a_ref t with
  | Copy => if ref_eqb (a_ref a) RValue then MExact else MPartial
  | LValue => if a_const t then MPartial else MNone
  | RValue => if ref_eqb (a_ref a) RValue && a_const t then MPartial else MNone
  end.
Lemma same_type_grade H T r c r' c' : wf_heap H -> valid H T -> ~ has_user_conversion H T T ->
  isConvertibleTo H (Arg T r c) (Arg T r' c') = Ok (same_grade (Arg T r c) (Arg T r' c')).
Proof.
  intros W V NC. unfold isConvertibleTo, arg_eqb. cbn [a_type a_ref a_const].
  rewrite Nat.eqb_refl, Bool.xorb_nilpotent. rewrite no_conv_false by auto. cbn -[isParentOf].
  assert (P : isParentOf H T T = Ok true).
  { unfold isParentOf, isChildOf, fuel_of. cbn. now rewrite Nat.eqb_refl. }
  rewrite P. destruct r, c, r', c'; reflexivity.
Qed.

Lemma plumbing_ctors id T k b : id <> lit "operator=" -> fns_of id (plumbing id T k b) =
  (if k_def k && k_move k then [Fn id (Arg T Copy false) [] b] else []) ++
  (if k_copy k && k_move k then [Fn id (Arg T Copy false) [Arg T LValue true] (b + 1)] else []) ++
  (if k_move k then [Fn id (Arg T Copy false) [Arg T RValue false] (b + 3)] else []).
Proof.
  intro N. assert (E : str_eqb id (lit "operator=") = false) by now apply str_eqb_neq.
  destruct k as [d c m ca ma]; destruct d, c, m, ca, ma; unfold fns_of, plumbing, defaultCons, copyCons, moveCons, opCopyAssign, opMoveAssign, when; cbn -[lit str_eqb]; rewrite ?str_eqb_refl, ?E; reflexivity.
Qed.
Lemma plumbing_assigns id T k b : id <> lit "operator=" -> fns_of (lit "operator=") (plumbing id T k b) =
  (if k_copy_assign k then [Fn (lit "operator=") (Arg T LValue false) [Arg T LValue false; Arg T LValue true] (b + 2)] else []) ++
  (if k_move_assign k then [Fn (lit "operator=") (Arg T LValue false) [Arg T LValue false; Arg T RValue false] (b + 4)] else []).
Proof.
  intro N. assert (E : str_eqb (lit "operator=") id = false) by (apply str_eqb_neq; congruence).
  destruct k as [d c m ca ma]; destruct d, c, m, ca, ma; unfold fns_of, plumbing, defaultCons, copyCons, moveCons, opCopyAssign, opMoveAssign, when; cbn -[lit str_eqb]; rewrite ?str_eqb_refl, ?E; reflexivity.
Qed.

Lemma resolve_loop_app_none H l extra ret args : (forall f, In f extra -> test_sig H f ret args = Ok MNone) ->
  forall best amb, resolve_loop H (l ++ extra) ret args best amb = resolve_loop H l ret args best amb.
Proof.
  intro N. induction l as [|f l IH]; intros best amb; cbn -[test_sig].
  - induction extra as [|f extra IHe]; cbn -[test_sig]; [reflexivity|]. rewrite N by now left. cbn. apply IHe.
    intros. apply N. now right.
  - destruct (test_sig H f ret args) as [m| | | |]; try reflexivity. cbn.
    destruct (grade_eqb m MNone); [apply IH|].
    destruct ((match best with Some _ => true | None => false end) && grade_eqb m MPartial); [apply IH|].
    destruct (grade_eqb m MExact); [reflexivity|apply IH].
Qed.
Lemma resolve_app_none H l extra ret args : (forall f, In f extra -> test_sig H f ret args = Ok MNone) ->
  overloads_resolve H (l ++ extra) ret args = overloads_resolve H l ret args.
Proof. intro N. unfold overloads_resolve. now rewrite resolve_loop_app_none. Qed.
Lemma overloads_test_app_none H l extra ret args : (forall f, In f extra -> test_sig H f ret args = Ok MNone) ->
  overloads_test H (l ++ extra) ret args = overloads_test H l ret args.
Proof.
  intro N. induction l as [|f l IH]; cbn -[test_sig].
  - induction extra as [|f extra IHe]; cbn -[test_sig]; [reflexivity|]. rewrite N by now left. cbn. apply IHe.
    intros. apply N. now right.
  - destruct (test_sig H f ret args) as [m| | | |]; try reflexivity. cbn. destruct (grade_eqb m MNone); [apply IH|reflexivity].
Qed.

(* further one-argument constructors, from something T is not *)
Definition foreign_ctor (H : heap) (T : tptr) (id : str) (f : fn) : Prop :=
  exists p code, f = Fn id (Arg T Copy false) [p] code /\ arg_valid H p /\ a_type p <> T /\ a_type p <> h_value H /\
    ~ Subtype H T (a_type p) /\ ~ has_user_conversion H T (a_type p).

(* a body that starts from the plumbing of T *)
Record plumbed_body (H : heap) (T : tptr) (id : str) (k : caps) (b : nat) (rs : list reg) (extra : overloads) : Prop := {
  pb_carries : carries H T id rs;
  pb_ctors : fns_of id rs = fns_of id (plumbing id T k b) ++ extra;
  pb_assigns : fns_of (lit "operator=") rs = fns_of (lit "operator=") (plumbing id T k b);
  pb_noconv : forall ret args code, ~ In (RFn (converterName id) ret args code) rs;
  pb_foreign : Forall (foreign_ctor H T id) extra;
  pb_nodup : NoDup (map f_args extra) }.

Lemma NoDup_app_intro {A} (l m : list A) : NoDup l -> NoDup m -> (forall x, In x l -> ~ In x m) -> NoDup (l ++ m).
Proof.
  induction l as [|a l IH]; cbn; auto. intros Nl Nm D. inversion Nl; subst. constructor.
  - intros [J|J]%in_app_or; [contradiction|]. exact (D a (or_introl eq_refl) J).
  - apply IH; auto.
Qed.
Lemma NoDup_sig (l : list fn) : NoDup (map f_args l) -> NoDup (map (fun f => (f_ret f, f_args f)) l).
Proof.
  intro N. apply (NoDup_map_inv snd). rewrite map_map. exact N.
Qed.

Section Plumbed.
Context (H : heap) (T : tptr) (id : str) (k : caps) (b : nat) (rs : list reg) (extra : overloads).
Context (W : wf_heap H) (PB : plumbed_body H T id k b rs extra).
Context (NO : id <> lit "operator=") (NV : T <> h_void H) (NVal : T <> h_value H) (VV : h_value H <> h_void H).
Let C : carries H T id rs := pb_carries _ _ _ _ _ _ _ PB.

Lemma pl_valid : valid H T.
Proof. destruct C as (t & E & _). eapply tget_valid; eauto. Qed.
Lemma pl_noconv : ~ has_user_conversion H T T.
Proof.
  intro A. pose proof C as (t & E & E1 & _).
  destruct (carries_conversion _ _ _ _ T C) as (tu & ret & args & code & Eu & I); [congruence|auto|].
  assert (tu = t) as -> by congruence. rewrite E1 in I. now apply (pb_noconv _ _ _ _ _ _ _ PB) in I.
Qed.

Lemma pl_ret r c : testReturn H (ret_value H) (Arg T r c) = Ok MExact.
Proof.
  unfold testReturn, ret_value. cbn. rewrite !nat_eqb_neq by auto.
  unfold isConvertibleTo, arg_eqb. cbn. rewrite nat_eqb_neq by auto. rewrite Nat.eqb_refl. cbn.
  rewrite andb_false_r. reflexivity.
Qed.

Lemma pl_test0 n r c code : test_sig H (Fn n (Arg T r c) [] code) (ret_value H) [] = Ok MExact.
Proof. unfold test_sig. cbn [f_ret f_args]. rewrite pl_ret. reflexivity. Qed.
Lemma pl_test_arity n r c code ps args : length args <> length ps ->
  test_sig H (Fn n (Arg T r c) ps code) (ret_value H) args = Ok MNone.
Proof.
  intro L. unfold test_sig. cbn [f_ret f_args]. rewrite pl_ret. cbn. rewrite testArguments_arity by auto. reflexivity.
Qed.
Lemma pl_test1 n r c code r1 c1 r2 c2 :
  test_sig H (Fn n (Arg T r c) [Arg T r2 c2] code) (ret_value H) [Arg T r1 c1] = Ok (same_grade (Arg T r1 c1) (Arg T r2 c2)).
Proof.
  unfold test_sig. cbn [f_ret f_args]. rewrite pl_ret. cbn -[isConvertibleTo].
  rewrite same_type_grade by auto using pl_valid, pl_noconv. cbn -[same_grade].
  destruct (same_grade _ _); reflexivity.
Qed.
Lemma pl_test2 n r c code r1 c1 r2 c2 r3 c3 r4 c4 :
  test_sig H (Fn n (Arg T r c) [Arg T r2 c2; Arg T r4 c4] code) (ret_value H) [Arg T r1 c1; Arg T r3 c3]
  = Ok (combine (same_grade (Arg T r1 c1) (Arg T r2 c2)) (same_grade (Arg T r3 c3) (Arg T r4 c4))).
Proof.
  unfold test_sig. cbn [f_ret f_args]. rewrite pl_ret. cbn -[isConvertibleTo].
  rewrite !same_type_grade by auto using pl_valid, pl_noconv. cbn -[same_grade].
  destruct (same_grade _ _), (same_grade _ _); reflexivity.
Qed.
Lemma foreign_none f args : foreign_ctor H T id f -> Forall (fun a => a_type a = T) args ->
  test_sig H f (ret_value H) args = Ok MNone.
Proof.
  intros (p & code & -> & Vp & N1 & N2 & N3 & N4) Fa.
  destruct args as [|a [|a2 args]]; try (apply pl_test_arity; cbn; lia).
  assert (Ea : a_type a = T) by (inversion Fa; assumption).
  rewrite (test_unary H (Fn id (Arg T Copy false) [p] code) a VV T p eq_refl eq_refl NV NVal).
  apply unrelated_none; auto; try congruence. unfold arg_valid. rewrite Ea. apply pl_valid.
Qed.
Lemma foreign_none_copy f r : foreign_ctor H T id f ->
  test_sig H f (Arg T Copy false) [Arg T r false] = Ok MNone.
Proof.
  intros (p & code & -> & Vp & N1 & N2 & N3 & N4). apply test_args_none; auto using pl_valid.
  - apply pl_valid.
  - split; [apply pl_valid|repeat constructor; auto].
  - intros q Eq. cbn in Eq. injection Eq as <-. apply unrelated_none; cbn; auto. apply pl_valid.
Qed.

Lemma ctors_lookup : k_move k = true ->
  function H T id = Ok (fns_of id rs) /\ hasFunction H T id = Ok true.
Proof.
  intro M. destruct (carries_function H T id _ id C W) as [A _]. apply A.
  rewrite (pb_ctors _ _ _ _ _ _ _ PB), plumbing_ctors by auto. rewrite M. destruct (k_def k && true), (k_copy k && true); discriminate.
Qed.
Lemma no_ctors : k_move k = false -> extra = [] -> function H T id = Abort /\ hasFunction H T id = Ok false.
Proof.
  intros M X. destruct (carries_function H T id _ id C W) as [_ A]. apply A.
  rewrite (pb_ctors _ _ _ _ _ _ _ PB), X, plumbing_ctors by auto. rewrite M, !andb_false_r. reflexivity.
Qed.

Lemma ctor_resolution args : k_move k = true -> Forall (fun a => a_type a = T) args ->
  overloads_resolve H (fns_of id rs) (ret_value H) args = Ok (ctor_choice id T k b args).
Proof.
  intros M Fa. rewrite (pb_ctors _ _ _ _ _ _ _ PB), resolve_app_none.
  2: { intros f I. apply foreign_none; auto. eapply Forall_forall; [apply (pb_foreign _ _ _ _ _ _ _ PB)|auto]. }
  rewrite plumbing_ctors by auto. rewrite M, !andb_true_r.
  destruct args as [|[T1 r1 c1] [|a2 args]].
  - unfold ctor_choice. destruct (k_def k), (k_copy k); cbn -[test_sig]; unfold overloads_resolve; cbn -[test_sig];
      rewrite ?pl_test0; cbn -[test_sig]; rewrite ?pl_test_arity by (cbn; lia); cbn -[test_sig];
      rewrite ?pl_test_arity by (cbn; lia); reflexivity.
  - assert (T1 = T) as -> by (inversion Fa; assumption). clear Fa. unfold ctor_choice, overloads_resolve.
    destruct (k_def k), (k_copy k), r1, c1; cbn -[test_sig];
    repeat first [rewrite pl_test_arity by (cbn; lia) | rewrite pl_test1]; cbn -[test_sig];
    repeat (first [rewrite pl_test_arity by (cbn; lia) | rewrite pl_test1]; cbn -[test_sig]); reflexivity.
  - unfold ctor_choice, overloads_resolve. destruct (k_def k), (k_copy k); cbn -[test_sig];
    repeat (rewrite pl_test_arity by (cbn; lia); cbn -[test_sig]); reflexivity.
Qed.

Lemma assign_lookup : k_copy_assign k || k_move_assign k = true ->
  function H T (lit "operator=") = Ok (fns_of (lit "operator=") rs).
Proof.
  intro M. destruct (carries_function H T id _ (lit "operator=") C W) as [A _]. apply A.
  rewrite (pb_assigns _ _ _ _ _ _ _ PB), plumbing_assigns by auto. destruct (k_copy_assign k), (k_move_assign k); discriminate.
Qed.
Lemma assign_resolution obj a : a_type obj = T -> a_type a = T ->
  overloads_resolve H (fns_of (lit "operator=") rs) (ret_value H) [obj; a] = Ok (assign_choice T k b obj a).
Proof.
  intros E1 E2. rewrite (pb_assigns _ _ _ _ _ _ _ PB), plumbing_assigns by auto.
  destruct obj as [T1 r1 c1], a as [T2 r2 c2]; cbn in E1, E2. rewrite E1, E2. unfold assign_choice, overloads_resolve.
  destruct (k_copy_assign k), (k_move_assign k); cbn -[test_sig];
    repeat (rewrite pl_test2; cbn -[test_sig same_grade]);
    destruct r1, c1, r2, c2; cbn -[test_sig];
    repeat (rewrite pl_test2; cbn -[test_sig]); reflexivity.
Qed.

Lemma pl_fns_valid : Forall (fn_valid H) (fns_of id rs).
Proof.
  rewrite (pb_ctors _ _ _ _ _ _ _ PB). apply Forall_app. split.
  - apply Forall_forall. intros f I. apply In_fns_of in I as (ret & args & code & I & ->).
    apply (plumbing_sigs H) in I; [exact I|apply pl_valid].
  - eapply Forall_impl; [|apply (pb_foreign _ _ _ _ _ _ _ PB)]. intros f (p & code & -> & Vp & _).
    split; [apply pl_valid|repeat constructor; auto].
Qed.

Lemma copiable_noextra r :
  overloads_test H (fns_of id rs) (Arg T Copy false) [Arg T r false] =
  overloads_test H (fns_of id (plumbing id T k b)) (Arg T Copy false) [Arg T r false].
Proof.
  rewrite (pb_ctors _ _ _ _ _ _ _ PB). apply overloads_test_app_none.
  intros f I. apply foreign_none_copy. eapply Forall_forall; [apply (pb_foreign _ _ _ _ _ _ _ PB)|auto].
Qed.

Lemma pl_copytest n code r2 c2 r :
  test_sig H (Fn n (Arg T Copy false) [Arg T r2 c2] code) (Arg T Copy false) [Arg T r false] = Ok (same_grade (Arg T r false) (Arg T r2 c2)).
Proof.
  unfold test_sig. cbn [f_ret f_args]. rewrite testReturn_refl. cbn -[isConvertibleTo].
  rewrite same_type_grade by auto using pl_valid, pl_noconv. cbn -[same_grade].
  destruct (same_grade _ _); reflexivity.
Qed.
Lemma pl_copytest0 n code r :
  test_sig H (Fn n (Arg T Copy false) [] code) (Arg T Copy false) [Arg T r false] = Ok MNone.
Proof. unfold test_sig. cbn [f_ret f_args]. rewrite testReturn_refl. reflexivity. Qed.

Lemma plumbing_copiable : isCopiable H T = Ok (k_copy k && k_move k) /\ isMovable H T = Ok (k_move k).
Proof.
  pose proof C as (t & E & Eid & _). unfold isCopiable, isMovable. rewrite E, Eid.
  destruct (carries_function H T id _ id C W) as [A B].
  destruct (fns_of id rs) as [|f0 l0] eqn:Ef.
  - destruct (B eq_refl) as [_ ->]. cbn. 
    assert (M : k_move k = false).
    { destruct (k_move k) eqn:M; auto. rewrite (pb_ctors _ _ _ _ _ _ _ PB), plumbing_ctors, M in Ef by auto.
      destruct (k_def k && true), (k_copy k && true); discriminate. }
    rewrite M. now rewrite andb_false_r.
  - rewrite <- Ef in *. destruct A as [-> ->]; [congruence|]. cbn [negb bind].
    rewrite !copiable_noextra. rewrite plumbing_ctors by auto.
    destruct (k_def k), (k_copy k), (k_move k); cbn -[test_sig];
      repeat (first [rewrite pl_copytest0 | rewrite pl_copytest]; cbn -[test_sig]); auto.
Qed.

Lemma plumbing_plumbed E : cpp_copyable E T = k_copy k -> cpp_movable E T = k_move k ->
  k_copy k = true -> k_move k = true -> plumbed E H T T.
Proof.
  intros E1 E2 K1 K2. pose proof C as (t & Et & Eid & _). destruct (ctors_lookup K2) as [L1 L2].
  constructor; auto; try congruence.
  - exists t, (fns_of id rs), (b + 1). rewrite Eid. repeat (split; [solve [auto using pl_fns_valid]|]).
    rewrite (pb_ctors _ _ _ _ _ _ _ PB).
    rewrite plumbing_ctors by auto. rewrite K1, K2, andb_true_r. cbn [andb]. split.
    + apply in_or_app. left. apply in_or_app. right. now left.
    + split.
      * apply NoDup_sig. rewrite map_app. apply NoDup_app_intro.
        -- destruct (k_def k); cbn; repeat constructor; cbn; intuition discriminate.
        -- apply (pb_nodup _ _ _ _ _ _ _ PB).
        -- intros x I1 I2. apply in_map_iff in I2 as (f & <- & If).
           pose proof (proj1 (Forall_forall _ _) (pb_foreign _ _ _ _ _ _ _ PB) f If) as (q & code & -> & Vp & N1 & _).
           cbn in I1. destruct (k_def k); cbn in I1; intuition; try discriminate;
             match goal with X : [_] = [q] |- _ => injection X as <- end; cbn in N1; congruence.
      * intros f p I Ep. apply in_app_or in I as [I|I].
        -- left. apply in_app_or in I as [I|[<-|[<-|[]]]].
           ++ destruct (k_def k); cbn in I; [destruct I as [<-|[]]|destruct I]. discriminate.
           ++ cbn in Ep. injection Ep as <-. cbn. auto.
           ++ cbn in Ep. injection Ep as <-. cbn. auto.
        -- right. pose proof (proj1 (Forall_forall _ _) (pb_foreign _ _ _ _ _ _ _ PB) f I) as (q & code & -> & Vp & N1 & N2 & N3 & N4).
           cbn in Ep. injection Ep as <-. auto.
  - apply pl_noconv.
Qed.
End Plumbed.
