(* ProofPtr4.v - calls on reflected raw pointers (used by PropPtr, C71). *)
From Coq Require String.
Import String.StringSyntax.
From Verif Require Import Base ModelCore SpecCore ProofCore ProofMatch ModelValue SpecValue ProofValue ModelPlumb SpecPlumb ProofPlumb ProofPlumb2 ProofPlumb3 ModelCont SpecCont ProofCont ProofCont2 ModelPtr SpecPtr ProofPtr ProofPtr2 ProofPtr3.

Section Raw.
Context (E : cpp) (H : heap) (rb : nat) (P PP B : tptr) (pid : str) (RT : raw_type E H rb P PP B pid).
Notation all := (Caps true true true true true).
Notation id := (pid ++ lit "*").
Lemma rW : wf_heap H.
Proof. exact (rt_wf _ _ _ _ _ _ _ RT). Qed.
Lemma rA : h_value H <> h_void H /\ PP <> h_void H /\ PP <> h_value H /\ P <> h_void H /\ P <> h_value H /\ B <> h_void H /\ B <> h_value H.
Proof. exact (rt_apart _ _ _ _ _ _ _ RT). Qed.
Lemma rPP : valid H PP.
Proof. destruct (rt_carries _ _ _ _ _ _ _ RT) as (t & Et & _). eapply tget_valid; eauto. Qed.
Lemma r_may_point : may_point H PP P.
Proof.
  split; [exact (proj1 (rt_valid _ _ _ _ _ _ _ RT))|]. destruct (wf_acyclic _ rW) as (rank & R). exists rank. split; [exact R|]. apply R.
  pose proof (rt_carries _ _ _ _ _ _ _ RT) as (t' & Et' & _ & _ & _ & _ & Ep & _ & _). exists t'. split; auto. right.
  destruct (Ep (lit "*") P) as (_ & Q); [|congruence]. unfold rawPointer, plumbing. reflexivity.
Qed.
Lemma r_plumbed_body : plumbed_body H PP id all rb (rawPointer id PP P B all rb) [].
Proof.
  destruct (pointer_extension H PP P B pid rb (plumbing id PP all_caps rb ++ pointer_ext PP P B rb) (rt_pid _ _ _ _ _ _ _ RT) rPP (proj2 (rt_valid _ _ _ _ _ _ _ RT)) r_may_point) as (X & Y).
  exact (extension_plumbed H H PP id all rb _ (pointer_ext PP P B rb) X (rt_carries _ _ _ _ _ _ _ RT) Y).
Qed.
Lemma r_plumbed : plumbed E H PP PP.
Proof.
  destruct (rt_cpp _ _ _ _ _ _ _ RT) as (M & Cc & _). destruct rA as (_ & N1 & N2 & _).
  refine (plumbing_plumbed H PP id all rb _ [] rW r_plumbed_body _ N1 N2 E Cc M eq_refl eq_refl).
  apply star_not_op. apply (rt_pid _ _ _ _ _ _ _ RT).
Qed.
Lemma rG r c r' c' : isConvertibleTo H (Arg PP r c) (Arg PP r' c') = Ok (same_grade (Arg PP r c) (Arg PP r' c')).
Proof. apply same_type_grade; auto using rPP, rW. apply (pl_conv _ _ _ _ r_plumbed). Qed.
Lemma r_function n l : n <> id -> n <> lit "operator=" ->
  fns_of n (pointer_ext PP P B rb) = l -> l <> [] -> function H PP n = Ok l.
Proof.
  intros N1 N2 El Nl. pose proof (carries_function H PP id _ n (rt_carries _ _ _ _ _ _ _ RT) rW) as (F & _).
  assert (Q : fns_of n (rawPointer id PP P B all rb) = l).
  { change (fns_of n (plumbing id PP all rb ++ pointer_ext PP P B rb) = l).
    rewrite fns_of_app, (fns_of_none n (plumbing id PP all rb)); [exact El|].
    intros ret args code I. apply plumbing_names in I as [?|?]; congruence. }
  rewrite Q in F. now apply F.
Qed.
Lemma r_name_bool : lit "operator bool()" <> id.
Proof.
  change (lit "operator bool()") with (lit "operator bool(" ++ [41%N]). change (lit "*") with [42%N]. intro Q. apply snoc_inv in Q as (_ & Q). discriminate.
Qed.
Lemma r_name_star : lit "operator*" <> id.
Proof.
  change (lit "operator*") with (lit "operator" ++ [42%N]). change (lit "*") with [42%N]. intro Q. apply snoc_inv in Q as (Q & _).
  now apply (rt_pid _ _ _ _ _ _ _ RT).
Qed.

Context (n : nat) (m : mem) (st : state).
Notation call name args := (mtype_call (raw_body rb) (S (S n)) E H m st PP name args).

Lemma r_bool v p : unborn m (st_next st) -> raw_handle PP m v p -> exists w m' st', call (lit "operator bool()") [v] = Ok (w, m', st') /\
  unborn m' (st_next st') /\ answers B m' w (p <> None) /\ (forall y, m y <> DNone -> m' y = m y).
Proof.
  intros U (Tx & Mx). set (f := Fn (lit "operator bool()") (Arg B Copy false) [Arg PP Copy false] (rb + 5)).
  destruct rA as (NV & NQd & NQv & NPd & NPv & NBd & NBv).
  assert (Fo : function H PP (lit "operator bool()") = Ok [f]).
  { apply r_function; [exact r_name_bool|discriminate|reflexivity|discriminate]. }
  pose proof (arg_of v PP Tx) as Ex.
  assert (Ts : test_sig H f (ret_value H) (map v_arg [v]) = Ok (same_grade (v_arg v) (Arg PP Copy false))).
  { cbn [map]. unfold f. rewrite test_one by auto. rewrite Ex at 1. rewrite rG. now rewrite <- Ex. }
  assert (Ng : same_grade (v_arg v) (Arg PP Copy false) <> MNone) by (rewrite Ex; apply copy_grade).
  destruct (pass_index n E H st v PP rW NV rPP r_plumbed Tx) as (code & q & Ep & Q).
  assert (Er : overloads_resolve H [f] (ret_value H) (map v_arg [v]) = Ok (Chosen f)).
  { rewrite (resolve_one _ _ _ _ _ Ts). now destruct (same_grade (v_arg v) (Arg PP Copy false)). }
  rewrite (mtype_chosen (raw_body rb) (S (S n)) E H m st PP (lit "operator bool()") [v] [f] f _ [PCopy (st_next st, 0%N)]
    (St (S (st_next st)) (st_log st ++ [(code, [q])])) (mset m (st_next st) (DPtr p)) Fo Er Ts Ng).
  2: { cbn [f_args f pass_all]. rewrite Ep. reflexivity. }
  2: { cbn [st_log]. assert (Sk : skipn (length (st_log st)) (st_log st ++ [(code, [q])]) = [(code, [q])]) by (rewrite skipn_app, skipn_all, Nat.sub_diag; reflexivity).
    rewrite Sk. destruct Q as [->| ->]; cbn [run_ctors]; unfold copy_of; rewrite Mx; reflexivity. }
  cbn [f_code f]. unfold raw_body. replace (rb + 5 - rb) with 5 by lia. cbn [ptr_of fst]. unfold ptr_of. cbn [fst]. rewrite mset_same. cbn [bind].
  edestruct (finish_new E H f) as (log & ->); [reflexivity|exact NBd|exact NBv| |].
  { rewrite (proj2 (proj2 (rt_cpp _ _ _ _ _ _ _ RT))). apply orb_true_r. }
  cbn [st_next]. eexists _, _, _. split; [reflexivity|]. cbn [st_next]. split; [now apply unborn_mset, unborn_mset|]. split.
  - eapply truth_answers; [|reflexivity|apply mset_same]. destruct p; cbn; intuition discriminate.
  - intros y Ny. rewrite !mset_other; auto; apply (born m _ _ U) in Ny; lia.
Qed.

(* what operator* is called with, and the constness of what it returns *)
Lemma r_star v p : raw_handle PP m v p -> exists log c,
  (c = false <-> v_arg v = Arg PP LValue false) /\
  call (lit "operator*") [v] = match p with Some a => Ok (Val (Arg P LValue c) a false, m, St (st_next st) log) | None => UB end.
Proof.
  intros (Tx & Mx). set (f6 := Fn (lit "operator*") (Arg P LValue false) [Arg PP LValue false] (rb + 6)).
  set (f7 := Fn (lit "operator*") (Arg P LValue true) [Arg PP LValue true] (rb + 7)).
  destruct rA as (NV & NQd & NQv & NPd & NPv & NBd & NBv).
  assert (Fo : function H PP (lit "operator*") = Ok [f6; f7]).
  { apply r_function; [exact r_name_star|discriminate|reflexivity|discriminate]. }
  pose proof (arg_of v PP Tx) as Ex.
  assert (T6 : test_sig H f6 (ret_value H) (map v_arg [v]) = Ok (same_grade (v_arg v) (Arg PP LValue false))).
  { cbn [map]. unfold f6. rewrite test_one by auto. rewrite Ex at 1. rewrite rG. now rewrite <- Ex. }
  assert (T7 : test_sig H f7 (ret_value H) (map v_arg [v]) = Ok (same_grade (v_arg v) (Arg PP LValue true))).
  { cbn [map]. unfold f7. rewrite test_one by auto. rewrite Ex at 1. rewrite rG. now rewrite <- Ex. }
  assert (Bd : forall c, raw_body rb (rb + (if c : bool then 7 else 6)) [PRef (v_addr v)] m (st_next st) = match p with Some t => Ok (m, st_next st, RRef t) | None => UB end).
  { intros c. unfold raw_body, ptr_of. replace (rb + (if c then 7 else 6) - rb) with (if c then 7 else 6) by lia. rewrite Mx. now destruct c. }
  destruct (same_grade (v_arg v) (Arg PP LValue false)) eqn:G6.
  - assert (N6 : v_arg v <> Arg PP LValue false) by (intro Q; rewrite Q in G6; discriminate).
    assert (Ng : same_grade (v_arg v) (Arg PP LValue true) <> MNone) by (rewrite Ex; apply cref_grade).
    assert (Er : overloads_resolve H [f6; f7] (ret_value H) (map v_arg [v]) = Ok (Chosen f7)).
    { change [f6; f7] with ([f6] ++ [f7]). eapply resolve_last; [|exact T7|exact Ng]. intros f' [<-|[]]. exact T6. }
    rewrite (mtype_chosen (raw_body rb) (S (S n)) E H m st PP (lit "operator*") [v] [f6; f7] f7 _ [PRef (v_addr v)] st m Fo) with (1 := Er) (2 := T7) (3 := Ng);
      [|cbn [f_args f7 pass_all]; rewrite pass_cref by (auto using rPP, rW); reflexivity|apply ctors_none].
    cbn [f_code f7]. rewrite (Bd true). destruct p as [a|].
    + cbn [bind]. destruct (finish_ref E H f7 [PRef (v_addr v)] (st_log st) m (st_next st) a P true eq_refl NPd NPv) as (log & ->).
      exists log, true. split; [split; [discriminate|contradiction]|reflexivity].
    + exists [], true. split; [split; [discriminate|contradiction]|reflexivity].
  - exfalso. rewrite Ex in G6. unfold same_grade in G6. cbn in G6. destruct (ref_eqb _ _ && _); discriminate.
  - assert (Ev : v_arg v = Arg PP LValue false).
    { rewrite Ex in G6 |- *. unfold same_grade in G6. cbn [a_ref a_const] in G6.
      destruct (a_ref (v_arg v)); cbn in G6; try discriminate. destruct (a_const (v_arg v)); [discriminate|reflexivity]. }
    assert (Er : overloads_resolve H [f6; f7] (ret_value H) (map v_arg [v]) = Ok (Chosen f6)).
    { unfold overloads_resolve. cbn [resolve_loop]. rewrite T6. cbn [bind grade_eqb andb]. reflexivity. }
    rewrite (mtype_chosen (raw_body rb) (S (S n)) E H m st PP (lit "operator*") [v] [f6; f7] f6 _ [PRef (v_addr v)] st m Fo) with (1 := Er) (2 := T6);
      [|discriminate|cbn [f_args f6 pass_all]; rewrite pass_mut by (auto using rPP, rW); reflexivity|apply ctors_none].
    cbn [f_code f6]. rewrite (Bd false). destruct p as [a|].
    + cbn [bind]. destruct (finish_ref E H f6 [PRef (v_addr v)] (st_log st) m (st_next st) a P false eq_refl NPd NPv) as (log & ->).
      exists log, false. split; [split; auto|reflexivity].
    + exists [], false. split; [split; auto|reflexivity].
Qed.
End Raw.
