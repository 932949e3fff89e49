(* ProofValue.v - proofs about casts and argument passing (C14, C15, C52-C55). *)
From Coq Require String.
Import String.StringSyntax.
From Coq Require Import Relations.
From Verif Require Import Base ModelCore SpecCore ProofCore ProofMatch ProofCore2 ModelValue SpecValue.
Local Open Scope outcome_scope.

Lemma nat_eqb_neq a b : a <> b -> Nat.eqb a b = false.
Proof. apply Nat.eqb_neq. Qed.

(* ---- the Value return type accepts every by-value result ---- *)
Lemma ret_value_exact H T c : T <> h_void H -> T <> h_value H -> h_value H <> h_void H ->
  testReturn H (ret_value H) (Arg T Copy c) = Ok MExact.
Proof.
  intros Nv Nx D. unfold testReturn, ret_value. cbn [a_type].
  rewrite (nat_eqb_neq _ _ D), (nat_eqb_neq _ _ Nv).
  unfold isConvertibleTo. cbn [a_type].
  destruct (arg_eqb (Arg T Copy c) (Arg (h_value H) Copy false)) eqn:A.
  { apply arg_eqb_eq in A. injection A as A _. contradiction. }
  rewrite (nat_eqb_neq _ _ Nx), Nat.eqb_refl. cbn. reflexivity.
Qed.

Lemma test_unary H f a : h_value H <> h_void H ->
  forall T p, f_ret f = Arg T Copy false -> f_args f = [p] -> T <> h_void H -> T <> h_value H ->
  test_sig H f (ret_value H) [a] = isConvertibleTo H a p.
Proof.
  intros D T p Er Ep Nv Nx. unfold test_sig. rewrite Er, (ret_value_exact H T false Nv Nx D). cbn [bind].
  rewrite Ep. unfold testArguments. cbn [List.length Nat.eqb negb testArguments_loop].
  destruct (isConvertibleTo H a p) as [g| | | |]; cbn; try reflexivity.
  destruct g; reflexivity.
Qed.

Lemma test_args_none H f ret a : arg_valid H ret -> fn_valid H f -> wf_heap H ->
  (forall p, f_args f = [p] -> isConvertibleTo H a p = Ok MNone) ->
  test_sig H f ret [a] = Ok MNone.
Proof.
  intros Vr [Vf Va] W Hn. unfold test_sig.
  destruct (testReturn_total H ret (f_ret f) W Vr Vf) as [g ->]. cbn [bind].
  unfold testArguments. destruct (f_args f) as [|p [|p' ps]]; cbn.
  - destruct g; reflexivity.
  - rewrite (Hn p eq_refl). cbn. destruct g; reflexivity.
  - destruct g; reflexivity.
Qed.

(* no relation between the types: not convertible *)
Lemma unrelated_none H a p : wf_heap H -> arg_valid H a -> arg_valid H p ->
  a_type a <> h_value H -> a_type p <> h_value H -> ~ Subtype H (a_type a) (a_type p) ->
  ~ has_user_conversion H (a_type a) (a_type p) -> isConvertibleTo H a p = Ok MNone.
Proof.
  intros W Va Vp Na Np Ns Nc. apply isConvertibleTo_iff_Grade; auto. apply G_illegal; auto.
  - intros ->. apply Ns. constructor.
  - intros [[X _]|[_ X]]; contradiction.
  - intros [_ X]. contradiction.
Qed.

Lemma related_grade H a p : wf_heap H -> arg_valid H a -> arg_valid H p ->
  a_type a <> h_value H -> a_type p <> h_value H -> Subtype H (a_type a) (a_type p) ->
  ~ has_user_conversion H (a_type a) (a_type p) -> legal_binding a p ->
  isConvertibleTo H a p = Ok MExact /\ same_category a p \/ isConvertibleTo H a p = Ok MPartial /\ ~ same_category a p.
Proof.
  intros W Va Vp Na Np Ns Nc Hl.
  assert (No : ~ one_is_value H a p) by (intros [[X _]|[_ X]]; contradiction).
  destruct (arg_eqb a p) eqn:Q.
  - apply arg_eqb_eq in Q. subst p. left. rewrite isConvertibleTo_refl. split; auto. left; auto.
  - assert (Q' : a <> p) by (intros ->; assert (arg_eqb p p = true) by (now apply arg_eqb_eq); congruence).
    assert (Dec : same_category a p \/ ~ same_category a p).
    { unfold same_category. destruct (a_ref a), (a_ref p), (a_const a), (a_const p);
        (left; left; split; reflexivity) || (left; right; split; reflexivity) || (right; intros [[? ?]|[? ?]]; congruence). }
    destruct Dec as [S|S]; [left|right]; split; auto; apply isConvertibleTo_iff_Grade; auto;
      [apply G_exact|apply G_partial]; auto.
Qed.

(* ---- which constructor is chosen ---- *)
Lemma resolve_single H os ret args f g os1 os2 :
  (forall h, In h os -> exists m, test_sig H h ret args = Ok m) ->
  os = os1 ++ f :: os2 -> test_sig H f ret args = Ok g -> g <> MNone ->
  (forall h m, In h (os1 ++ os2) -> test_sig H h ret args = Ok m -> m = MNone \/ (g = MExact /\ m <> MExact)) ->
  overloads_resolve H os ret args = Ok (Chosen f).
Proof.
  intros Tot -> Tf Ng Oth.
  assert (T1 : forall os, (forall h, In h os -> exists m, test_sig H h ret args = Ok m) ->
    exists gs, Forall2 (fun f g => test_sig H f ret args = Ok g) os gs).
  { clear. induction os as [|o os IH]; intro Tot; [exists []; constructor|].
    destruct (Tot o (or_introl eq_refl)) as [m Em]. destruct IH as [gs Hg]; [intros; apply Tot; now right|].
    exists (m :: gs). constructor; auto. }
  destruct (T1 os1) as [g1 G1]; [intros; apply Tot, in_or_app; now left|].
  destruct (T1 os2) as [g2 G2]; [intros; apply Tot, in_or_app; right; now right|].
  apply (resolve_iff _ _ _ _ (g1 ++ g :: g2)).
  { apply Forall2_app; auto. }
  assert (L1 : length os1 = length g1) by (eapply Forall2_len; eauto).
  replace (List.combine (os1 ++ f :: os2) (g1 ++ g :: g2))
    with (List.combine os1 g1 ++ (f, g) :: List.combine os2 g2).
  2:{ clear - L1. revert g1 L1. induction os1 as [|o os1 IH]; intros [|x g1] L; cbn in *; try discriminate; auto.
      f_equal. apply IH. lia. }
  assert (In1 : forall h m, In (h, m) (List.combine os1 g1) -> In h (os1 ++ os2) /\ test_sig H h ret args = Ok m).
  { intros h m Hi. eapply In_combine_graded in Hi as [A B]; [split; [apply in_or_app; left; exact A|exact B]|exact G1]. }
  assert (In2 : forall h m, In (h, m) (List.combine os2 g2) -> In h (os1 ++ os2) /\ test_sig H h ret args = Ok m).
  { intros h m Hi. eapply In_combine_graded in Hi as [A B]; [split; [apply in_or_app; right; exact A|exact B]|exact G2]. }
  cbn [resolution_spec]. destruct g; [contradiction| |].
  - right. split.
    + intros h m Hi. apply in_app_or in Hi as [Hi|[Hi|Hi]].
      * apply In1 in Hi as [A B]. destruct (Oth _ _ A B) as [->|[? _]]; discriminate.
      * injection Hi as <- <-. discriminate.
      * apply In2 in Hi as [A B]. destruct (Oth _ _ A B) as [->|[? _]]; discriminate.
    + eexists _, _. split; [reflexivity|]. intros h m Hi.
      apply in_app_or in Hi as [Hi|Hi]; [apply In1 in Hi as [A B]|apply In2 in Hi as [A B]];
        destruct (Oth _ _ A B) as [->|[? _]]; auto; discriminate.
  - left. eexists _, _. split; [reflexivity|]. intros h m Hi. apply In1 in Hi as [A B].
    destruct (Oth _ _ A B) as [->|[_ ?]]; auto; discriminate.
Qed.

Lemma NoDup_split_other {A B} (F : A -> B) l1 x l2 y : NoDup (map F (l1 ++ x :: l2)) ->
  In y (l1 ++ l2) -> F y <> F x.
Proof.
  rewrite map_app. cbn. intros Nd Hi E. apply NoDup_remove_2 in Nd. apply Nd. rewrite <- map_app, <- E.
  now apply in_map.
Qed.

Definition movecase (a : argument) : bool := ref_eqb (a_ref a) RValue && negb (a_const a).

Lemma ctor_resolves E H C T t fns a :
  wf_heap H -> h_value H <> h_void H -> plumbed E H C T -> tget H T = Some t -> function H T (t_id t) = Ok fns ->
  a_type a = C -> valid H C -> C <> h_value H -> Subtype H C T -> ~ has_user_conversion H C T ->
  exists f p, overloads_resolve H fns (ret_value H) [a] = Ok (Chosen f) /\ In f fns /\
    f = Fn (t_id t) (Arg T Copy false) [p] (f_code f) /\
    (exists g, test_sig H f (ret_value H) [a] = Ok g /\ g <> MNone) /\
    (p = Arg T LValue true \/ (p = Arg T RValue false /\ a_ref a = RValue /\ a_const a = false)) /\
    (p = Arg T RValue false -> isMovable H T = Ok true).
Proof.
  intros W D PL Et Ef Ea VC NC Sub Nconv.
  destruct (pl_type _ _ _ _ PL) as (t0 & fns0 & code & Et0 & Ef0 & Vf & Icp & Nd & Un).
  rewrite Et in Et0. injection Et0 as <-. rewrite Ef in Ef0. injection Ef0 as <-.
  pose proof (pl_void _ _ _ _ PL) as Nv. pose proof (pl_value _ _ _ _ PL) as Nx.
  assert (VT : valid H T) by (eapply tget_valid; eauto).
  assert (Va : arg_valid H a) by (unfold arg_valid; now rewrite Ea).
  assert (Vr : arg_valid H (ret_value H)) by (apply wf_value; auto).
  assert (Tot : forall h, In h fns -> exists m, test_sig H h (ret_value H) [a] = Ok m).
  { intros h Hi. apply test_sig_total; auto. rewrite Forall_forall in Vf. now apply Vf. }
  rewrite Forall_forall in Vf.
  (* the grade of every constructor *)
  assert (Gcopy : forall f, f_ret f = Arg T Copy false -> f_args f = [Arg T LValue true] ->
     test_sig H f (ret_value H) [a] = Ok MExact /\ a_ref a = LValue /\ a_const a = true \/
     test_sig H f (ret_value H) [a] = Ok MPartial /\ ~ (a_ref a = LValue /\ a_const a = true)).
  { intros f Er Ep. rewrite (test_unary H f a D T _ Er Ep Nv Nx).
    destruct (related_grade H a (Arg T LValue true) W Va) as [[-> S]|[-> S]]; cbn; try congruence; auto.
    - left. split; auto. destruct S as [S|[_ S]]; [exact S|discriminate].
    - right. split; auto. intro X. apply S. left. exact X. }
  assert (Gmove : forall f, f_ret f = Arg T Copy false -> f_args f = [Arg T RValue false] ->
     test_sig H f (ret_value H) [a] = Ok MExact /\ a_ref a = RValue /\ a_const a = false \/
     test_sig H f (ret_value H) [a] = Ok MNone /\ ~ (a_ref a = RValue /\ a_const a = false)).
  { intros f Er Ep. rewrite (test_unary H f a D T _ Er Ep Nv Nx).
    destruct (movecase a) eqn:M; unfold movecase in M.
    - apply andb_true_iff in M as [M1 M2]. apply ref_eqb_eq in M1. apply negb_true_iff in M2. left.
      split; auto. destruct (related_grade H a (Arg T RValue false) W Va) as [[X S]|[_ S]]; cbn; try congruence; auto.
      + split; congruence.
      + exfalso. apply S. left. cbn. auto.
    - right. assert (Nm : ~ (a_ref a = RValue /\ a_const a = false)).
      { intros [X Y]. rewrite X, Y in M. discriminate. }
      split; auto. apply isConvertibleTo_iff_Grade; auto.
      apply G_illegal; cbn; try congruence.
      + intros ->. now apply Nm.
      + intros [[X _]|[_ X]]; cbn in X; congruence.
      + intros [[X Y] _]. cbn in *. apply Nm. split; auto. destruct (a_const a); auto. now specialize (Y eq_refl). }
  assert (Gother : forall f, In f fns -> (forall p, f_args f = [p] -> p <> Arg T LValue true /\ p <> Arg T RValue false) ->
     test_sig H f (ret_value H) [a] = Ok MNone).
  { intros f Hi Hp. apply test_args_none; auto. intros p Ep.
    destruct (Un f p Hi Ep) as [[_ [->| ->]]|(N1 & N2 & N3)].
    - destruct (Hp _ Ep) as [X _]. congruence.
    - destruct (Hp _ Ep) as [_ X]. congruence.
    - apply unrelated_none; auto; try congruence.
      destruct (Vf f Hi) as [_ Vas]. rewrite Ep in Vas. now inversion Vas. }
  set (isMoveCtor := fun f => f_args f = [Arg T RValue false]).
  assert (Dec : (exists f, In f fns /\ isMoveCtor f) \/ (forall f, In f fns -> ~ isMoveCtor f)).
  { clear. unfold isMoveCtor. assert (Dc : forall f : fn, {f_args f = [Arg T RValue false]} + {f_args f <> [Arg T RValue false]}).
    { intro f. destruct (f_args f) as [|p [|p' ps]]; [right; discriminate| |right; discriminate].
      destruct (arg_eqb p (Arg T RValue false)) eqn:Q; [left; apply arg_eqb_eq in Q; congruence|right].
      intro X. injection X as ->. assert (arg_eqb (Arg T RValue false) (Arg T RValue false) = true) by (now apply arg_eqb_eq). congruence. }
    induction fns as [|f fns IH]; [right; intros f []|].
    destruct (Dc f) as [X|X]; [left; exists f; split; [now left|exact X]|].
    destruct IH as [(h & Hi & Hm)|N]; [left; exists h; split; [now right|auto]|].
    right. intros h [<-|Hi]; auto. }
  assert (CP : exists f p, overloads_resolve H fns (ret_value H) [a] = Ok (Chosen f) /\ In f fns /\
    f_args f = [p] /\
    (exists g, test_sig H f (ret_value H) [a] = Ok g /\ g <> MNone) /\
    (p = Arg T LValue true \/ (p = Arg T RValue false /\ a_ref a = RValue /\ a_const a = false))).
  2:{ destruct CP as (f & p & R & Hi & Ep & Hg & Hp). exists f, p.
      destruct (Un f p Hi Ep) as [[Ff Hpp]|(N1 & N2 & N3)].
      - repeat split; auto. intros ->. rewrite Ff in Hi.
        exact (c13_ctor H T t fns (f_code f) RValue W Et Nv Nx (pl_conv _ _ _ _ PL) Ef (proj2 (Forall_forall _ _) Vf) Hi).
      - exfalso. apply N2. destruct Hp as [->|[-> _]]; exact Sub. }
  (* not a move: the copy constructor *)
  assert (COPY : ((exists f, In f fns /\ isMoveCtor f) -> ~ (a_ref a = RValue /\ a_const a = false)) ->
    exists f p, overloads_resolve H fns (ret_value H) [a] = Ok (Chosen f) /\ In f fns /\
    f_args f = [p] /\
    (exists g, test_sig H f (ret_value H) [a] = Ok g /\ g <> MNone) /\
    (p = Arg T LValue true \/ (p = Arg T RValue false /\ a_ref a = RValue /\ a_const a = false))).
  { intro Hn. set (cp := Fn (t_id t) (Arg T Copy false) [Arg T LValue true] code) in *.
    exists cp, (Arg T LValue true). destruct (in_split _ _ Icp) as (l1 & l2 & Es).
    assert (Oth : forall h m, In h (l1 ++ l2) -> test_sig H h (ret_value H) [a] = Ok m -> m = MNone).
    { intros h m Hi Tm. assert (Hi' : In h fns).
      { rewrite Es. apply in_app_or in Hi as [?|?]; apply in_or_app; [now left|right; now right]. }
      assert (Nsig : (f_ret h, f_args h) <> (f_ret cp, f_args cp)).
      { rewrite Es in Nd. exact (NoDup_split_other _ _ _ _ _ Nd Hi). }
      destruct (f_args h) as [|p [|p' ps]] eqn:Eh.
      1,3: rewrite (Gother h Hi') in Tm; [now injection Tm|intros q Eq; congruence].
      destruct (Un h p Hi' Eh) as [[Fh [-> | ->]]|(N1 & N2 & N3)].
      - exfalso. apply Nsig. rewrite Fh. reflexivity.
      - destruct (Gmove h) as [(X & Y)|[X Y]]; auto; [rewrite Fh; reflexivity| |congruence].
        exfalso. apply Hn; auto. exists h. split; auto.
      - rewrite (Gother h Hi') in Tm; [now injection Tm|]. intros q Eq. rewrite Eh in Eq. injection Eq as <-.
        split; intros ->; now apply N2. }
    destruct (Gcopy cp eq_refl eq_refl) as [[Tg _]|[Tg _]].
    - repeat split; auto; [|now exists MExact].
      eapply resolve_single; [exact Tot|exact Es|exact Tg|discriminate|]. intros h m Hi Tm. left. eauto.
    - repeat split; auto; [|now exists MPartial].
      eapply resolve_single; [exact Tot|exact Es|exact Tg|discriminate|]. intros h m Hi Tm. left. eauto. }
  destruct (movecase a) eqn:M.
  2:{ apply COPY. intros _ [X Y]. unfold movecase in M. rewrite X, Y in M. discriminate. }
  unfold movecase in M. apply andb_true_iff in M as [M1 M2]. apply ref_eqb_eq in M1. apply negb_true_iff in M2.
  destruct Dec as [(mv & Imv & Hmv)|N]; [|apply COPY; intros (f & Hi & Hm); destruct (N f Hi Hm)].
  exists mv, (Arg T RValue false). destruct (in_split _ _ Imv) as (l1 & l2 & Es).
  assert (Fmv : f_ret mv = Arg T Copy false).
  { destruct (Un mv _ Imv Hmv) as [[-> _]|(N1 & N2 & N3)]; [reflexivity|]. exfalso. now apply N2. }
  destruct (Gmove mv Fmv Hmv) as [[Tg _]|[_ X]]; [|destruct X; auto].
  split; [|repeat split; auto; now exists MExact].
  eapply resolve_single; [exact Tot|exact Es|exact Tg|discriminate|].
  intros h m Hi Tm. assert (Hi' : In h fns).
  { rewrite Es. apply in_app_or in Hi as [?|?]; apply in_or_app; [now left|right; now right]. }
  assert (Nsig : (f_ret h, f_args h) <> (f_ret mv, f_args mv)).
  { rewrite Es in Nd. exact (NoDup_split_other _ _ _ _ _ Nd Hi). }
  destruct (f_args h) as [|p [|p' ps]] eqn:Eh.
  1,3: left; rewrite (Gother h Hi') in Tm; [now injection Tm|intros q Eq; congruence].
  destruct (Un h p Hi' Eh) as [[Fh [-> | ->]]|(N1 & N2 & N3)].
  - right. split; auto. destruct (Gcopy h) as [(_ & X & _)|[X _]]; auto; try congruence. now rewrite Fh.
  - exfalso. apply Nsig. rewrite Fh. cbn. rewrite Fmv. unfold isMoveCtor in Hmv. now rewrite Hmv.
  - left. rewrite (Gother h Hi') in Tm; [now injection Tm|]. intros q Eq. rewrite Eh in Eq. injection Eq as <-.
    split; intros ->; now apply N2.
Qed.

(* ---- casts ---- *)
Lemma child_ok H a b : wf_heap H -> valid H a -> valid H b -> Subtype H a b -> isChildOf H a b = Ok true.
Proof. intros W Va Vb S. now apply isChildOf_spec. Qed.
Lemma child_no H a b : wf_heap H -> valid H a -> valid H b -> ~ Subtype H a b -> isChildOf H a b = Ok false.
Proof. intros W Va Vb S. now apply isChildOf_spec_false. Qed.

Lemma cast_lref n E H st v t : wf_heap H -> valid H (v_type v) -> valid H (a_type t) ->
  a_ref t = LValue -> Subtype H (v_type v) (a_type t) ->
  (a_const t = false -> a_const (v_arg v) = false /\ a_ref (v_arg v) = LValue) ->
  cast_f (S n) E H st v t = Ok (v, st).
Proof.
  intros W Vv Vt Er S Hc. cbn [cast_f]. rewrite Er. unfold lref, isParentOf.
  rewrite (child_ok H _ _ W Vv Vt S). cbn [bind]. destruct (a_const t); auto.
  destruct (Hc eq_refl) as [-> ->]. reflexivity.
Qed.

Lemma cast_lref_const n E H st v t : wf_heap H -> valid H (v_type v) -> valid H (a_type t) ->
  a_ref t = LValue -> a_const t = false -> a_const (v_arg v) = true ->
  cast_f (S n) E H st v t = Abort.
Proof.
  intros W Vv Vt Er Ec Hc. cbn [cast_f]. rewrite Er. unfold lref, isParentOf.
  destruct (isChildOf_total H (v_type v) (a_type t) W Vv Vt) as [[|] ->]; cbn; auto.
  rewrite Ec, Hc. reflexivity.
Qed.

Lemma cast_rref n E H st v t : wf_heap H -> valid H (v_type v) -> valid H (a_type t) ->
  a_ref t = RValue -> Subtype H (v_type v) (a_type t) -> isMovable H (a_type t) = Ok true ->
  cast_f (S n) E H st v t = Ok (v, st).
Proof.
  intros W Vv Vt Er S Hm. cbn [cast_f]. rewrite Er, Hm. cbn [bind negb].
  rewrite (child_ok H _ _ W Vv Vt S). reflexivity.
Qed.

Lemma value_as_ok H v T : wf_heap H -> valid H (v_type v) -> valid H T -> Subtype H (v_type v) T ->
  value_as H v T = Ok (v_addr v).
Proof. intros. unfold value_as. rewrite child_ok; auto. Qed.

Lemma pass_lref n E H st v p : wf_heap H -> valid H (v_type v) -> valid H (a_type p) ->
  a_type p <> h_value H ->
  a_ref p = LValue -> Subtype H (v_type v) (a_type p) ->
  (a_const p = false -> a_const (v_arg v) = false /\ a_ref (v_arg v) = LValue) ->
  pass (S n) E H st v p = Ok (PRef (v_addr v), st).
Proof.
  intros W Vv Vp Np Er S Hc. unfold pass. rewrite (nat_eqb_neq _ _ Np), (cast_lref n E H st v p) by auto.
  cbn [bind andb]. unfold cast_ret. rewrite Er. cbn [ref_eqb].
  rewrite (value_as_ok H v (a_type p)) by auto. reflexivity.
Qed.

Lemma pass_rref n E H st v p : wf_heap H -> valid H (v_type v) -> valid H (a_type p) ->
  a_type p <> h_value H -> cpp_movable E (a_type p) = true ->
  a_ref p = RValue -> Subtype H (v_type v) (a_type p) -> isMovable H (a_type p) = Ok true ->
  pass (S n) E H st v p = Ok (PMove (v_addr v), st).
Proof.
  intros W Vv Vp Np Em Er S Hm. unfold pass. rewrite (nat_eqb_neq _ _ Np), (cast_rref n E H st v p) by auto.
  cbn [bind andb]. unfold cast_ret. rewrite Er, Em. cbn [ref_eqb andb].
  rewrite (value_as_ok H v (a_type p)) by auto. reflexivity.
Qed.

Definition fresh_of (T : tptr) (st : state) : value := Val (Arg T LValue false) (st_next st, 0%N) true.
Definition logged (st : state) (code : nat) (qs : list param) : state :=
  St (S (st_next st)) (st_log st ++ [(code, qs)]).

Lemma wrap_copy E H name T args code qs st : T <> h_void H -> T <> h_value H -> cpp_copyable E T = true ->
  wrap_ret E H (Fn name (Arg T Copy false) args code) qs st = Ok (fresh_of T st, logged st code qs).
Proof.
  intros Nv Nx Ec. unfold wrap_ret. cbn [f_ret f_code a_type a_ref a_const].
  rewrite (nat_eqb_neq _ _ Nv), (nat_eqb_neq _ _ Nx). cbn [ref_eqb]. unfold make_value, storable. cbn.
  rewrite Ec, orb_true_r. reflexivity.
Qed.

Lemma cast_f_copy_child n E H st v T c :
  wf_heap H -> h_value H <> h_void H -> valid H (v_type v) -> v_type v <> h_value H ->
  plumbed E H (v_type v) T -> Subtype H (v_type v) T -> ~ has_user_conversion H (v_type v) T ->
  exists code q, ctor_code H T code /\
    (q = PRef (v_addr v) \/ (q = PMove (v_addr v) /\ a_ref (v_arg v) = RValue /\ a_const (v_arg v) = false)) /\
    cast_f (S (S n)) E H st v (Arg T Copy c) = Ok (fresh_of T st, logged st code [q]).
Proof.
  intros W D Vv Nv PL S Nc.
  destruct (pl_type _ _ _ _ PL) as (t & fns & code0 & Et & Ef & Vf & Icp & Nd & Un).
  assert (VT : valid H T) by (eapply tget_valid; eauto).
  pose proof (pl_void _ _ _ _ PL) as NTv. pose proof (pl_value _ _ _ _ PL) as NTx.
  destruct (ctor_resolves E H (v_type v) T t fns (v_arg v) W D PL Et Ef eq_refl Vv Nv S Nc)
    as (f & p & R & Hi & Ff & (g & Tg & Ng) & Hp & Hm).
  assert (Ccop : isCopiable H T = Ok true).
  { exact (proj1 (c13_ctor H T t fns code0 LValue W Et NTv NTx (pl_conv _ _ _ _ PL) Ef Vf Icp)). }
  exists (f_code f), (if ref_eqb (a_ref p) LValue then PRef (v_addr v) else PMove (v_addr v)).
  split; [exists t, fns, f; auto|]. split.
  { destruct Hp as [->|(-> & X & Y)]; cbn; auto. }
  remember (Datatypes.S n) as m eqn:Em. cbn [cast_f a_ref a_type].
  rewrite Ccop. cbn [bind negb]. rewrite (child_ok H _ _ W Vv VT S). cbn [bind]. rewrite Et, Ef. cbn [bind].
  rewrite R. cbn [bind]. rewrite Tg. cbn [bind].
  replace (grade_eqb g MNone) with false by (destruct g; [contradiction|reflexivity..]).
  assert (Ep : f_args f = [p]) by (rewrite Ff; reflexivity). rewrite Ep.
  assert (Pp : (if Nat.eqb (a_type p) (h_value H) && ref_eqb (a_ref p) Copy then Ok (PVal v, st) else
      do (w, st1) <- cast_f m E H st v p; do q <- cast_ret E H p w; Ok (q, st1)) =
      Ok (if ref_eqb (a_ref p) LValue then PRef (v_addr v) else PMove (v_addr v), st)).
  { subst m. destruct Hp as [->|(-> & X & Y)].
    - apply (pass_lref n E H st v (Arg T LValue true)); auto. intro; discriminate.
    - apply (pass_rref n E H st v (Arg T RValue false)); auto. exact (pl_movable _ _ _ _ PL). }
  rewrite Pp. cbn [bind]. rewrite Ff. cbn [f_code].
  rewrite (wrap_copy E H _ T _ _ _ st); auto. exact (pl_copyable _ _ _ _ PL).
Qed.

Lemma cast_f_convert n E H st v T (r : reftype) c :
  wf_heap H -> h_value H <> h_void H -> valid H (v_type v) -> v_type v <> h_value H -> valid H T ->
  r <> LValue -> (match r with RValue => isMovable H T | _ => isCopiable H T end) = Ok true ->
  ~ Subtype H (v_type v) T -> conversion_ok E H (v_type v) T ->
  exists code, conversion_fn H (v_type v) T code /\
    cast_f (S (S n)) E H st v (Arg T r c) = Ok (fresh_of T st, logged st code [PRef (v_addr v)]).
Proof.
  intros W D Vv Nv VT Nr Hm Ns ((code & (t & name & P & Et & Ef & VP & NP & SP & NcP)) & NTv & NTx & Ecp & Emv).
  exists code. split; [exists t, name, P; auto 10|].
  assert (Hc : hasConverter H (v_type v) T = Ok true).
  { apply hasConverter_spec; auto. destruct (c11_functions H (v_type v) (lit "operator " ++ t_id t ++ lit "()") W Vv) as [(_ & (c0 & A & B) & _)|(_ & _ & X)].
    - exists t, c0. auto.
    - rewrite Ef in X. discriminate. }
  assert (Cv : converter H (v_type v) T = Ok (Fn name (Arg T Copy false) [Arg P LValue true] code)).
  { unfold converter. rewrite Et. unfold converterName. rewrite Ef. reflexivity. }
  remember (S n) as m eqn:Em. cbn [cast_f a_ref a_type].
  set (f := Fn name (Arg T Copy false) [Arg P LValue true] code) in *.
  assert (Tg : exists g, test_sig H f (ret_value H) [v_arg v] = Ok g /\ g <> MNone).
  { rewrite (test_unary H f (v_arg v) D T (Arg P LValue true)); auto.
    destruct (related_grade H (v_arg v) (Arg P LValue true) W Vv VP Nv NP SP NcP) as [[-> _]|[-> _]];
      [left; reflexivity|eexists; split; [reflexivity|discriminate]..]. }
  destruct Tg as (g & Tg & Ng).
  assert (K : (do f <- converter H (v_type v) T;
      do g <- test_sig H f (ret_value H) [v_arg v];
      if grade_eqb g MNone then Abort else
      match f_args f with
      | [p] => do (q, st1) <- (if Nat.eqb (a_type p) (h_value H) && ref_eqb (a_ref p) Copy then Ok (PVal v, st) else
                 do (w, st1) <- cast_f m E H st v p; do q <- cast_ret E H p w; Ok (q, st1));
               wrap_ret E H f [q] st1
      | _ => UB
      end) = Ok (fresh_of T st, logged st code [PRef (v_addr v)])).
  { rewrite Cv. cbn [bind]. rewrite Tg. cbn [bind].
    replace (grade_eqb g MNone) with false by (destruct g; [contradiction|reflexivity..]).
    change (f_args f) with [Arg P LValue true]. cbv iota.
    pose proof (pass_lref n E H st v (Arg P LValue true)) as Pp. unfold pass in Pp. rewrite Em.
    rewrite Pp; auto; [|intro; discriminate]. cbn [bind]. now apply wrap_copy. }
  destruct r; [| contradiction |]; cbv beta iota zeta; rewrite Hm; cbn [bind negb];
    rewrite (child_no H _ _ W Vv VT Ns); cbn [bind]; rewrite Hc; cbn [bind]; exact K.
Qed.

(* ---- passing one argument ---- *)
Lemma pass_one n E H st v p : wf_heap H -> h_value H <> h_void H -> valid H (v_type v) -> arg_valid H p ->
  v_type v <> h_value H ->
  ((a_type p = h_value H /\ a_ref p = Copy) \/
   (a_type p <> h_value H /\
    match a_ref p with
    | LValue => Subtype H (v_type v) (a_type p) /\
                (a_const p = false -> a_const (v_arg v) = false /\ a_ref (v_arg v) = LValue)
    | RValue => isMovable H (a_type p) = Ok true /\ cpp_movable E (a_type p) = true /\
                (Subtype H (v_type v) (a_type p) \/ conversion_ok E H (v_type v) (a_type p))
    | Copy => (Subtype H (v_type v) (a_type p) /\ ~ has_user_conversion H (v_type v) (a_type p) /\ plumbed E H (v_type v) (a_type p)) \/
              (~ Subtype H (v_type v) (a_type p) /\ isCopiable H (a_type p) = Ok true /\ conversion_ok E H (v_type v) (a_type p))
    end)) ->
  exists q st', pass (S (S n)) E H st v p = Ok (q, st') /\ Passed H st v p q st'.
Proof.
  intros W D Vv Vp Nv [[E1 E2]|[Np K]].
  { exists (PVal v), st. split; [|now constructor]. unfold pass. rewrite E1, E2, Nat.eqb_refl. reflexivity. }
  destruct p as [T r c]. unfold arg_valid in Vp. cbn [a_type a_ref a_const] in *.
  assert (SubT : Subtype H T T) by constructor.
  destruct r.
  - (* by value *)
    destruct K as [(S & Nc & PL)|(Ns & Hc & CO)].
    + destruct (cast_f_copy_child n E H st v T c W D Vv Nv PL S Nc) as (code & q & Hcode & Hq & Ec).
      exists (PCopy (st_next st, 0%N)), (logged st code [q]). split.
      * unfold pass. cbn [a_type]. rewrite (nat_eqb_neq _ _ Np). cbn [andb]. rewrite Ec. cbn [bind].
        unfold cast_ret. cbn [a_ref a_type ref_eqb andb]. rewrite (pl_copyable _ _ _ _ PL).
        unfold value_as, v_type, fresh_of. cbn [v_arg a_type]. rewrite (child_ok H T T W Vp Vp SubT). reflexivity.
      * eapply Passed_copy; eauto.
    + destruct (cast_f_convert n E H st v T Copy c W D Vv Nv Vp ltac:(discriminate) Hc Ns CO) as (code & Hcode & Ec).
      exists (PCopy (st_next st, 0%N)), (logged st code [PRef (v_addr v)]). split.
      * unfold pass. cbn [a_type]. rewrite (nat_eqb_neq _ _ Np). cbn [andb]. rewrite Ec. cbn [bind].
        unfold cast_ret. cbn [a_ref a_type ref_eqb andb]. destruct CO as (_ & _ & _ & -> & _).
        unfold value_as, v_type, fresh_of. cbn [v_arg a_type]. rewrite (child_ok H T T W Vp Vp SubT). reflexivity.
      * apply (Passed_converted H st v (Arg T Copy c) code); auto. cbn. discriminate.
  - destruct K as [S Hc]. exists (PRef (v_addr v)), st. split.
    + now apply pass_lref.
    + now apply Passed_lref.
  - destruct K as (Hm & Em & Hs).
    destruct (isChildOf_total H (v_type v) T W Vv Vp) as [[|] Hch].
    + apply isChildOf_spec in Hch; auto. exists (PMove (v_addr v)), st. split.
      * now apply pass_rref.
      * now apply Passed_rref.
    + apply isChildOf_spec_false in Hch; auto. destruct Hs as [Hs|CO]; [contradiction|].
      destruct (cast_f_convert n E H st v T RValue c W D Vv Nv Vp ltac:(discriminate) Hm Hch CO) as (code & Hcode & Ec).
      exists (PMove (st_next st, 0%N)), (logged st code [PRef (v_addr v)]). split.
      * unfold pass. cbn [a_type]. rewrite (nat_eqb_neq _ _ Np). cbn [andb]. rewrite Ec. cbn [bind].
        unfold cast_ret. cbn [a_ref a_type ref_eqb andb]. rewrite Em. cbn [andb].
        unfold value_as, v_type, fresh_of. cbn [v_arg a_type]. rewrite (child_ok H T T W Vp Vp SubT). reflexivity.
      * apply (Passed_converted H st v (Arg T RValue c) code); auto. cbn. discriminate.
Qed.

(* carrying *)
Lemma to_value_ok E st c : match c with CRaw a _ => a_ref a = RValue -> storable E (a_type a) (a_const a) = true | CVal _ => True end ->
  exists v st1, to_value E st c = Ok (v, st1) /\ Carried st c v st1.
Proof.
  destruct c as [v|a x]; intro Hs.
  - exists v, st. split; constructor.
  - cbn. unfold make_value. destruct (ref_eqb (a_ref a) RValue) eqn:R; cbn.
    + apply ref_eqb_eq in R. rewrite (Hs R). eexists _, _. split; [reflexivity|]. now constructor.
    + eexists _, _. split; [reflexivity|]. constructor. intro X. apply ref_eqb_eq in X. congruence.
Qed.

Lemma Carried_type st c v st1 : Carried st c v st1 -> v_type v = a_type (carg_arg c).
Proof. intros []; reflexivity. Qed.

(* the carried value is as good as the argument for a parameter that accepted it *)
Lemma carried_bind E H st c v st1 p m : wf_heap H -> arg_valid H (carg_arg c) -> arg_valid H p ->
  Carried st c v st1 -> passable E H c p ->
  isConvertibleTo H (carg_arg c) p = Ok m -> m <> MNone ->
  ((a_type p = h_value H /\ a_ref p = Copy) \/
   (a_type p <> h_value H /\
    match a_ref p with
    | LValue => Subtype H (v_type v) (a_type p) /\
                (a_const p = false -> a_const (v_arg v) = false /\ a_ref (v_arg v) = LValue)
    | RValue => isMovable H (a_type p) = Ok true /\ cpp_movable E (a_type p) = true /\
                (Subtype H (v_type v) (a_type p) \/ conversion_ok E H (v_type v) (a_type p))
    | Copy => (Subtype H (v_type v) (a_type p) /\ ~ has_user_conversion H (v_type v) (a_type p) /\ plumbed E H (v_type v) (a_type p)) \/
              (~ Subtype H (v_type v) (a_type p) /\ isCopiable H (a_type p) = Ok true /\ conversion_ok E H (v_type v) (a_type p))
    end)).
Proof.
  intros W Vc Vp Ca (Hst & Nc & Ps) Em Nm.
  pose proof (Carried_type _ _ _ _ Ca) as Ty. rewrite !Ty.
  destruct Ps as [Ps|[Np Ps]]; [now left|right]. split; auto.
  destruct (a_ref p) eqn:Er; auto.
  assert (Em' := Em). apply isConvertibleTo_iff_Grade in Em; auto.
  assert (Key : Subtype H (a_type (carg_arg c)) (a_type p) /\ (a_const p = false -> a_const (carg_arg c) = false /\ a_ref (carg_arg c) = LValue)).
  { inversion Em; try contradiction; try congruence.
    - match goal with X : carg_arg c = p |- _ => rewrite X end.
      split; [constructor|auto].
    - match goal with X : one_is_value _ _ _ |- _ => destruct X as [[X _]|[_ X]]; contradiction end.
    - match goal with X : legal_binding _ _ |- _ => unfold legal_binding in X; rewrite Er in X; split; auto;
        intro Y; destruct X as [X|X]; [congruence|exact X] end.
    - match goal with X : legal_binding _ _ |- _ => unfold legal_binding in X; rewrite Er in X; split; auto;
        intro Y; destruct X as [X|X]; [congruence|exact X] end. }
  destruct Key as [K1 K2]. split; auto. intro Ecp. destruct (K2 Ecp) as [K3 K4].
  inversion Ca; subst; cbn in *; auto.
Qed.

(* ---- lists of arguments ---- *)
Lemma testArguments_loop_each H vs : forall ts m g, length vs = length ts ->
  testArguments_loop H m vs ts = Ok g -> g <> MNone ->
  Forall2 (fun v t => exists k, isConvertibleTo H v t = Ok k /\ k <> MNone) vs ts.
Proof.
  induction vs as [|v vs IH]; intros [|t ts] m g L T Ng; cbn in L; try discriminate; constructor.
  - cbn in T. destruct (isConvertibleTo H v t) as [k| | | |]; try discriminate. cbn in T.
    exists k. split; auto. intros ->. destruct m; cbn in T; congruence.
  - cbn in T. destruct (isConvertibleTo H v t) as [k| | | |]; try discriminate. cbn in T.
    destruct (grade_eqb (combine m k) MNone); [congruence|]. eapply IH; eauto.
Qed.

Lemma test_sig_each H f ret args g : test_sig H f ret args = Ok g -> g <> MNone ->
  (exists k, testReturn H ret (f_ret f) = Ok k /\ k <> MNone) /\
  Forall2 (fun v t => exists k, isConvertibleTo H v t = Ok k /\ k <> MNone) args (f_args f).
Proof.
  unfold test_sig. intros T Ng. destruct (testReturn H ret (f_ret f)) as [k| | | |]; try discriminate. cbn in T.
  destruct (testArguments H args (f_args f)) as [k'| | | |] eqn:A; try discriminate. cbn in T. injection T as <-.
  split.
  - exists k. split; auto. intros ->. destruct k'; cbn in Ng; congruence.
  - unfold testArguments in A. destruct (Nat.eqb (length args) (length (f_args f))) eqn:L; cbn in A.
    + apply Nat.eqb_eq in L. eapply testArguments_loop_each; eauto. intros ->. destruct k; cbn in Ng; congruence.
    + injection A as <-. destruct k; cbn in Ng; congruence.
Qed.

Lemma to_values_ok E cs : forall st,
  Forall (fun c => match c with CRaw a _ => a_ref a = RValue -> storable E (a_type a) (a_const a) = true | CVal _ => True end) cs ->
  exists vs st1, to_values E st cs = Ok (vs, st1) /\ CarriedAll st cs vs st1.
Proof.
  induction cs as [|c cs IH]; intros st F.
  - exists [], st. split; constructor.
  - inversion F as [|? ? F1 F2]; subst. destruct (to_value_ok E st c F1) as (v & st1 & E1 & C1).
    destruct (IH st1 F2) as (vs & st2 & E2 & C2). exists (v :: vs), st2. split.
    + cbn. rewrite E1. cbn. rewrite E2. reflexivity.
    + econstructor; eauto.
Qed.

Lemma pass_all_ok n E H : wf_heap H -> h_value H <> h_void H -> forall st0 cs vs st1, CarriedAll st0 cs vs st1 ->
  forall ps st,
  Forall (fun c => arg_valid H (carg_arg c)) cs -> Forall (arg_valid H) ps ->
  Forall2 (passable E H) cs ps ->
  Forall2 (fun c t => exists k, isConvertibleTo H (carg_arg c) t = Ok k /\ k <> MNone) cs ps ->
  exists qs st', pass_all (S (S n)) E H st vs ps = Ok (qs, st') /\ PassedAll H st vs ps qs st'.
Proof.
  intros W D st0 cs vs st1 CA. induction CA as [st0|st0 c v st01 cs vs st02 C1 CA IH]; intros ps st Vc Vp Ps Cv.
  - inversion Ps; subst. exists [], st. split; constructor.
  - inversion Ps as [|? p ? ps' P1 P2]; subst. inversion Cv as [|? ? ? ? (k & K1 & K2) Cv']; subst.
    inversion Vc as [|? ? Vc1 Vc2]; subst. inversion Vp as [|? ? Vp1 Vp2]; subst.
    pose proof (Carried_type _ _ _ _ C1) as Ty.
    destruct (pass_one n E H st v p) as (q & st1 & E1 & H1); auto.
    + rewrite Ty. exact Vc1.
    + rewrite Ty. exact (proj1 (proj2 P1)).
    + eapply carried_bind; eauto.
    + destruct (IH ps' st1 Vc2 Vp2 P2 Cv') as (qs & st2 & E2 & H2). exists (q :: qs), st2. split.
      * cbn [pass_all]. rewrite E1. cbn [bind]. rewrite E2. reflexivity.
      * econstructor; eauto.
Qed.

Lemma wrap_ret_ok E H f qs st : returnable E H f ->
  exists r st', wrap_ret E H f qs st = Ok (r, st') /\ Returned E H f qs st r st'.
Proof.
  intro R. unfold wrap_ret.
  destruct (Nat.eqb (a_type (f_ret f)) (h_void H)) eqn:Qv.
  { apply Nat.eqb_eq in Qv. eexists _, _. split; [reflexivity|]. apply Returned_void; auto. }
  apply Nat.eqb_neq in Qv.
  destruct (Nat.eqb (a_type (f_ret f)) (h_value H)) eqn:Qx.
  { apply Nat.eqb_eq in Qx. eexists _, _. split; [reflexivity|]. now apply Returned_value. }
  apply Nat.eqb_neq in Qx.
  destruct (ref_eqb (a_ref (f_ret f)) LValue) eqn:Ql.
  { apply ref_eqb_eq in Ql. eexists _, _. split; [reflexivity|]. now apply Returned_ref. }
  assert (Nl : a_ref (f_ret f) <> LValue) by (intro X; apply ref_eqb_eq in X; congruence).
  unfold make_value. cbn [a_ref ref_eqb negb a_type a_const]. rewrite (R Qv Qx Nl).
  eexists _, _. split; [reflexivity|]. cbn [st_next st_log]. now apply Returned_temp.
Qed.

Lemma call_fn_ok n E H st f ret cs g : wf_heap H -> h_value H <> h_void H ->
  fn_valid H f -> Forall (fun c => arg_valid H (carg_arg c)) cs ->
  Forall2 (passable E H) cs (f_args f) -> returnable E H f ->
  test_sig H f ret (map carg_arg cs) = Ok g -> g <> MNone ->
  exists vs st1 qs st2 r st3,
    CarriedAll st cs vs st1 /\ PassedAll H st1 vs (f_args f) qs st2 /\ Returned E H f qs st2 r st3 /\
    call_fn (S (S n)) E H st f ret cs = Ok (r, st3).
Proof.
  intros W D [_ Vp] Vc Ps Rt Tg Ng.
  destruct (to_values_ok E cs st) as (vs & st1 & E1 & C1).
  { clear - Ps. induction Ps as [|c p cs ps P Ps IH]; constructor; auto. destruct c; exact (proj1 P). }
  destruct (test_sig_each H f ret _ g Tg Ng) as [_ Cv].
  assert (Cv' : Forall2 (fun c t => exists k, isConvertibleTo H (carg_arg c) t = Ok k /\ k <> MNone) cs (f_args f)).
  { remember (f_args f) as ps eqn:Eps. clear - Cv. revert ps Cv. induction cs as [|c cs IH]; intros ps Cv; inversion Cv; subst; constructor; auto. }
  destruct (pass_all_ok n E H W D st cs vs st1 C1 (f_args f) st1 Vc Vp Ps Cv') as (qs & st2 & E2 & C2).
  destruct (wrap_ret_ok E H f qs st2 Rt) as (r & st3 & E3 & C3).
  exists vs, st1, qs, st2, r, st3. repeat split; auto.
  unfold call_fn. rewrite Tg. cbn [bind].
  replace (grade_eqb g MNone) with false by (destruct g; [contradiction|reflexivity..]).
  rewrite E1. cbn [bind]. rewrite E2. cbn [bind]. exact E3.
Qed.

(* ---- returning ---- *)
Lemma ret_cast_ok n E H f ret qs st r st1 k : wf_heap H -> h_value H <> h_void H ->
  fn_valid H f -> arg_valid H ret -> result_ok E H (f_ret f) ret ->
  Returned E H f qs st r st1 ->
  testReturn H ret (f_ret f) = Ok k -> k <> MNone ->
  (a_type ret = h_void H /\ ret_cast (S (S n)) E H st1 r ret = Ok (None, st1)) \/
  (a_type ret <> h_void H /\ exists q st2, ret_cast (S (S n)) E H st1 r ret = Ok (Some q, st2) /\ Passed H st1 r ret q st2).
Proof.
  intros W D [Vr _] Vt Ok_ Rt Tr Nk. unfold ret_cast.
  destruct (Nat.eqb (a_type ret) (h_void H)) eqn:Qv.
  { apply Nat.eqb_eq in Qv. left. auto. }
  apply Nat.eqb_neq in Qv. right. split; auto.
  destruct Ok_ as [X|[[X Y]|(N1 & N2 & N3 & K)]]; [contradiction| |].
  { exists (PVal r), st1. split; [|now constructor]. unfold pass. rewrite X, Y, Nat.eqb_refl. reflexivity. }
  (* the result is not void, since a void result converts to nothing *)
  assert (Nv : a_type (f_ret f) <> h_void H).
  { intro X. unfold testReturn in Tr. rewrite (nat_eqb_neq _ _ Qv), X, Nat.eqb_refl, (nat_eqb_neq _ _ N2) in Tr.
    cbn in Tr. congruence. }
  unfold testReturn in Tr. rewrite (nat_eqb_neq _ _ Qv), (nat_eqb_neq _ _ Nv) in Tr.
  destruct (isConvertibleTo H (f_ret f) ret) as [m| | | |] eqn:Cv; try discriminate. cbn [bind] in Tr.
  destruct (grade_eqb m MNone) eqn:Qm; [congruence|].
  assert (Nm : m <> MNone) by (intros ->; discriminate).
  destruct (isTemporary (f_ret f) && isConstRef ret) eqn:Qt; [congruence|].
  assert (Tyr : v_type r = a_type (f_ret f)) by (inversion Rt; subst; try reflexivity; congruence).
  destruct (pass_one n E H st1 r ret) as (q & st2 & E2 & H2); auto.
  - rewrite Tyr. exact Vr.
  - rewrite Tyr. exact N3.
  - right. split; auto. rewrite Tyr. destruct (a_ref ret) eqn:Er; [exact K| |destruct K].
    apply isConvertibleTo_iff_Grade in Cv; auto.
    assert (Key : Subtype H (a_type (f_ret f)) (a_type ret) /\ (a_const ret = false -> a_const (f_ret f) = false /\ a_ref (f_ret f) = LValue)).
    { inversion Cv; try contradiction; try congruence.
      - match goal with X : f_ret f = ret |- _ => rewrite X end. split; [constructor|auto].
      - match goal with X : one_is_value _ _ _ |- _ => destruct X as [[X _]|[_ X]]; contradiction end.
      - match goal with X : legal_binding _ _ |- _ => unfold legal_binding in X; rewrite Er in X; split; auto;
          intro Y; destruct X as [X|X]; [congruence|exact X] end.
      - match goal with X : legal_binding _ _ |- _ => unfold legal_binding in X; rewrite Er in X; split; auto;
          intro Y; destruct X as [X|X]; [congruence|exact X] end. }
    destruct Key as [K1 K2]. split; auto. intro Ec. destruct (K2 Ec) as [K3 K4].
    inversion Rt; subst; try contradiction; cbn in *; auto.
  - exists q, st2. rewrite E2. cbn. auto.
Qed.

Lemma call_ret_ok n E H st f ret cs g : wf_heap H -> h_value H <> h_void H ->
  fn_valid H f -> arg_valid H ret -> Forall (fun c => arg_valid H (carg_arg c)) cs ->
  Forall2 (passable E H) cs (f_args f) -> returnable E H f -> result_ok E H (f_ret f) ret ->
  test_sig H f ret (map carg_arg cs) = Ok g -> g <> MNone ->
  exists vs st1 qs st2 r st3 oq st4,
    CarriedAll st cs vs st1 /\ PassedAll H st1 vs (f_args f) qs st2 /\ Returned E H f qs st2 r st3 /\
    ((a_type ret = h_void H /\ oq = None /\ st4 = st3) \/
     (a_type ret <> h_void H /\ exists q, oq = Some q /\ Passed H st3 r ret q st4)) /\
    call_ret (S (S n)) E H st f ret cs = Ok (oq, st4).
Proof.
  intros W D Vf Vr Vc Ps Rt Ro Tg Ng.
  destruct (call_fn_ok n E H st f ret cs g W D Vf Vc Ps Rt Tg Ng) as (vs & st1 & qs & st2 & r & st3 & A & B & C & Ec).
  destruct (test_sig_each H f ret _ g Tg Ng) as [(k & Tr & Nk) _].
  exists vs, st1, qs, st2, r, st3. unfold call_ret. rewrite Ec. cbn [bind].
  destruct (ret_cast_ok n E H f ret qs st2 r st3 k W D Vf Vr Ro C Tr Nk) as [[X ->]|(X & q & st4 & -> & Pq)].
  - exists None, st3. repeat split; auto.
  - exists (Some q), st4. repeat split; auto. right. eauto.
Qed.

(* ---- const views ---- *)
Lemma view_const E H v w : view E H v w -> a_const (v_arg v) = true ->
  a_const (v_arg w) = true /\ fst (v_addr w) = fst (v_addr v).
Proof.
  intros Vw Cv. destruct Vw as [v|v|v|v name w Ef|n st v t w st' Er Ec]; cbn; auto.
  - unfold value_field in Ef. destruct (field_ H (v_type v) name) as [f| | | |]; try discriminate. cbn in Ef.
    injection Ef as <-. cbn. rewrite Cv, orb_true_r. auto.
  - destruct n; [discriminate|]. cbn [cast_f] in Ec. rewrite Er in Ec. unfold lref in Ec.
    destruct (isParentOf H (a_type t) (v_type v)) as [[|]| | | |]; try discriminate. cbn in Ec.
    rewrite Cv in Ec. cbn in Ec. destruct (a_const t); cbn in Ec; try discriminate. injection Ec as <- _. auto.
Qed.

Lemma views_const E H v w : views E H v w -> a_const (v_arg v) = true ->
  a_const (v_arg w) = true /\ fst (v_addr w) = fst (v_addr v).
Proof.
  intro Vs. induction Vs as [v|v u w V1 Vs IH]; intro C; auto.
  destruct (view_const E H v u V1 C) as [C1 F1]. destruct (IH C1) as [C2 F2]. split; congruence.
Qed.

(* ---- copy() and move() ---- *)
Lemma ctor_moves E H C T t fns a f mv : wf_heap H -> h_value H <> h_void H -> plumbed E H C T -> tget H T = Some t ->
  function H T (t_id t) = Ok fns -> a_type a = C -> valid H C -> C <> h_value H -> Subtype H C T ->
  ~ has_user_conversion H C T -> In mv fns -> f_args mv = [Arg T RValue false] ->
  a_ref a = RValue -> a_const a = false ->
  overloads_resolve H fns (ret_value H) [a] = Ok (Chosen f) -> f_args f <> [Arg T LValue true].
Proof.
  intros W D PL Et Ef Ea VC NC Sub Nc Imv Amv Er Ec R Ep.
  destruct (pl_type _ _ _ _ PL) as (t0 & fns0 & code & Et0 & Ef0 & Vf & Icp & Nd & Un).
  rewrite Et in Et0. injection Et0 as <-. rewrite Ef in Ef0. injection Ef0 as <-.
  pose proof (pl_void _ _ _ _ PL) as Nv. pose proof (pl_value _ _ _ _ PL) as Nx.
  assert (VT : valid H T) by (eapply tget_valid; eauto).
  assert (Va : arg_valid H a) by (unfold arg_valid; now rewrite Ea).
  assert (Vr : arg_valid H (ret_value H)) by (apply wf_value; auto).
  destruct (test_sig_grades_total H fns (ret_value H) [a] W Vf Vr) as [gs G]; [auto|].
  apply (resolve_iff _ _ _ _ gs _ G) in R.
  assert (Tmv : test_sig H mv (ret_value H) [a] = Ok MExact).
  { assert (f_ret mv = Arg T Copy false).
    { destruct (Un mv _ Imv Amv) as [[-> _]|(_ & X & _)]; [reflexivity|]. exfalso. apply X. exact Sub. }
    rewrite (test_unary H mv a D T _ H0 Amv Nv Nx).
    destruct (related_grade H a (Arg T RValue false) W Va) as [[X S]|[_ S]]; cbn; try congruence; auto.
    - split; congruence.
    - exfalso. apply S. left. cbn. auto. }
  assert (Inm : In (mv, MExact) (List.combine fns gs)).
  { clear - G Imv Tmv. induction G as [|h g fns gs Hg G IH]; [destruct Imv|]. destruct Imv as [->|Imv].
    - left. congruence.
    - right. auto. }
  cbn in R. destruct R as [(l1 & l2 & Es & _)|(Nex & _)]; [|exact (Nex _ _ Inm eq_refl)].
  assert (If : In (f, MExact) (List.combine fns gs)) by (rewrite Es; apply in_or_app; right; now left).
  destruct (In_combine_graded H _ _ fns gs f G _ If) as [Hf Tf].
  assert (Rf : f_ret f = Arg T Copy false).
  { destruct (Un f _ Hf Ep) as [[-> _]|(_ & X & _)]; [reflexivity|]. exfalso. apply X. exact Sub. }
  rewrite (test_unary H f a D T _ Rf Ep Nv Nx) in Tf.
  destruct (related_grade H a (Arg T LValue true) W Va) as [[_ S]|[X _]]; cbn; try congruence; auto.
  destruct S as [[S _]|[_ S]]; cbn in S; congruence.
Qed.

Lemma construct_full n E H st v : wf_heap H -> h_value H <> h_void H -> valid H (v_type v) ->
  plumbed E H (v_type v) (v_type v) ->
  exists code q, ctor_code H (v_type v) code /\
    (forall t fns f, tget H (v_type v) = Some t -> function H (v_type v) (t_id t) = Ok fns ->
       overloads_resolve H fns (ret_value H) [v_arg v] = Ok (Chosen f) -> code = f_code f) /\
    (q = PRef (v_addr v) \/ (q = PMove (v_addr v) /\ a_ref (v_arg v) = RValue /\ a_const (v_arg v) = false)) /\
    ((exists t fns mv, tget H (v_type v) = Some t /\ function H (v_type v) (t_id t) = Ok fns /\ In mv fns /\
        f_args mv = [Arg (v_type v) RValue false]) -> a_ref (v_arg v) = RValue -> a_const (v_arg v) = false ->
       q = PMove (v_addr v)) /\
    construct (S n) E H st (v_type v) [CVal v] = Ok (fresh_of (v_type v) st, logged st code [q]).
Proof.
  intros W D Vv PL. set (T := v_type v) in *.
  destruct (pl_type _ _ _ _ PL) as (t & fns & code0 & Et & Ef & Vf & Icp & Nd & Un).
  pose proof (pl_void _ _ _ _ PL) as NTv. pose proof (pl_value _ _ _ _ PL) as NTx. pose proof (pl_conv _ _ _ _ PL) as Nc.
  assert (SubT : Subtype H T T) by constructor.
  destruct (ctor_resolves E H T T t fns (v_arg v) W D PL Et Ef eq_refl Vv NTx SubT Nc)
    as (f & p & R & Hi & Ff & (g & Tg & Ng) & Hp & Hm).
  exists (f_code f), (if ref_eqb (a_ref p) LValue then PRef (v_addr v) else PMove (v_addr v)).
  split; [exists t, fns, f; auto|]. split.
  { intros t1 fns1 f1 Et1 Ef1 R1. rewrite Et in Et1. injection Et1 as <-. rewrite Ef in Ef1. injection Ef1 as <-.
    rewrite R in R1. now injection R1 as <-. }
  split.
  { destruct Hp as [->|(-> & X & Y)]; cbn; auto. }
  split.
  { intros (t1 & fns1 & mv & Et1 & Ef1 & Imv & Amv) Xr Xc. rewrite Et in Et1. injection Et1 as <-.
    rewrite Ef in Ef1. injection Ef1 as <-.
    destruct Hp as [->|(-> & _)]; [|reflexivity]. exfalso.
    eapply (ctor_moves E H T T t fns (v_arg v) f mv); eauto. rewrite Ff. reflexivity. }
  unfold construct. rewrite Et. unfold type_call. rewrite Ef. cbn [bind]. unfold overloads_call.
  cbn [map carg_arg]. rewrite R. cbn [bind]. unfold call_value, call_fn. cbn [map carg_arg]. rewrite Tg. cbn [bind].
  replace (grade_eqb g MNone) with false by (destruct g; [contradiction|reflexivity..]).
  cbn [to_values to_value bind]. assert (Ep : f_args f = [p]) by (rewrite Ff; reflexivity). rewrite Ep.
  cbn [pass_all].
  assert (Pp : pass (S n) E H st v p = Ok (if ref_eqb (a_ref p) LValue then PRef (v_addr v) else PMove (v_addr v), st)).
  { destruct Hp as [->|(-> & X & Y)].
    - apply pass_lref; auto. intro; discriminate.
    - apply pass_rref; auto. exact (pl_movable _ _ _ _ PL). }
  rewrite Pp. cbn [bind]. rewrite Ff. cbn [f_code].
  rewrite (wrap_copy E H _ T _ _ _ st); auto. exact (pl_copyable _ _ _ _ PL).
Qed.

Lemma construct_ok n E H st v : wf_heap H -> h_value H <> h_void H -> valid H (v_type v) ->
  plumbed E H (v_type v) (v_type v) ->
  exists code q, ctor_code H (v_type v) code /\
    (q = PRef (v_addr v) \/ (q = PMove (v_addr v) /\ a_ref (v_arg v) = RValue /\ a_const (v_arg v) = false)) /\
    ((exists t fns mv, tget H (v_type v) = Some t /\ function H (v_type v) (t_id t) = Ok fns /\ In mv fns /\
        f_args mv = [Arg (v_type v) RValue false]) -> a_ref (v_arg v) = RValue -> a_const (v_arg v) = false ->
       q = PMove (v_addr v)) /\
    construct (S n) E H st (v_type v) [CVal v] = Ok (fresh_of (v_type v) st, logged st code [q]).
Proof.
  intros W D Vv PL. destruct (construct_full n E H st v W D Vv PL) as (code & q & X1 & _ & X2 & X3 & X4).
  exists code, q. auto.
Qed.
