(* ProofCont.v - reflected calls on containers: resolution and marshalling. *)
From Coq Require String.
Import String.StringSyntax.
From Verif Require Import Base ModelCore SpecCore ProofCore ProofMatch ModelValue SpecValue ProofValue ModelPlumb SpecPlumb ProofPlumb ProofPlumb2 ProofPlumb3 ModelCont SpecCont.

(* ----- signature tests against a requested Value ----- *)
Lemma ret_any H r : h_value H <> h_void H -> a_type r <> h_value H -> testReturn H (ret_value H) r = Ok MExact.
Proof.
  intros NV NR. unfold testReturn, ret_value. cbn [a_type a_ref a_const]. rewrite (nat_eqb_neq _ _ NV).
  destruct (Nat.eqb_spec (a_type r) (h_void H)) as [E|N].
  - rewrite Nat.eqb_refl. cbn. reflexivity.
  - unfold isConvertibleTo, arg_eqb. cbn [a_type a_ref a_const]. rewrite (nat_eqb_neq _ _ NR), Nat.eqb_refl. cbn.
    unfold isConstRef. cbn. now rewrite andb_false_r.
Qed.

Lemma test_one H n r code a p : h_value H <> h_void H -> a_type r <> h_value H ->
  test_sig H (Fn n r [p] code) (ret_value H) [a] = isConvertibleTo H a p.
Proof.
  intros NV NR. unfold test_sig. cbn [f_ret f_args]. rewrite ret_any by auto. cbn [bind]. unfold testArguments. cbn [length Nat.eqb negb].
  cbn [testArguments_loop]. destruct (isConvertibleTo H a p) as [g| | | |]; cbn; auto. destruct g; reflexivity.
Qed.
Lemma test_two H n r code a1 a2 p1 p2 g1 g2 : h_value H <> h_void H -> a_type r <> h_value H ->
  isConvertibleTo H a1 p1 = Ok g1 -> isConvertibleTo H a2 p2 = Ok g2 ->
  test_sig H (Fn n r [p1; p2] code) (ret_value H) [a1; a2] = Ok (combine g1 g2).
Proof.
  intros NV NR E1 E2. unfold test_sig. cbn [f_ret f_args]. rewrite ret_any by auto. cbn [bind]. unfold testArguments. cbn [length Nat.eqb negb].
  cbn [testArguments_loop]. rewrite E1. cbn [bind]. destruct g1; cbn; rewrite ?E2; cbn; try reflexivity; destruct g2; reflexivity.
Qed.
Lemma test_arity H n r code ps args : h_value H <> h_void H -> a_type r <> h_value H -> length args <> length ps ->
  test_sig H (Fn n r ps code) (ret_value H) args = Ok MNone.
Proof.
  intros NV NR L. unfold test_sig. cbn [f_ret f_args]. rewrite ret_any by auto. cbn [bind]. unfold testArguments.
  destruct (Nat.eqb_spec (length args) (length ps)); [contradiction|]. reflexivity.
Qed.

Lemma resolve_one H f ret args g : test_sig H f ret args = Ok g ->
  overloads_resolve H [f] ret args = Ok (if grade_eqb g MNone then NoOverload else Chosen f).
Proof. intro E. unfold overloads_resolve. cbn [resolve_loop]. rewrite E. destruct g; reflexivity. Qed.

Lemma mcall_none B n E H m st v name vs os : function H (v_type v) name = Ok os ->
  overloads_resolve H os (ret_value H) (map v_arg (v :: vs)) = Ok NoOverload ->
  mcall B n E H m st v name vs = Abort.
Proof. intros Eo Er. unfold mcall. rewrite Eo. cbn [bind]. rewrite Er. reflexivity. Qed.

Lemma mcall_chosen B n E H m st v name vs os f g qs st1 m1 : function H (v_type v) name = Ok os ->
  overloads_resolve H os (ret_value H) (map v_arg (v :: vs)) = Ok (Chosen f) ->
  test_sig H f (ret_value H) (map v_arg (v :: vs)) = Ok g -> g <> MNone ->
  pass_all n E H st (v :: vs) (f_args f) = Ok (qs, st1) ->
  run_ctors m (st_next st) (skipn (length (st_log st)) (st_log st1)) = Ok m1 ->
  mcall B n E H m st v name vs =
    bind (B (f_code f) qs m1 (st_next st1)) (fun x => let '(r2, res) := x in let '(m2, next2) := r2 in
      bind (wrap_ret (with_ref E res) H f qs (St next2 (st_log st1)))
        (fun y => let '(w, st2) := y in Ok (w, match res with RNew d => mset m2 next2 d | _ => m2 end, st2))).
Proof.
  intros Eo Er Et Ng Ep Em. unfold mcall. rewrite Eo. cbn [bind]. rewrite Er. cbn [bind]. rewrite Et. cbn [bind].
  destruct (grade_eqb g MNone) eqn:G; [destruct g; try discriminate; congruence|]. rewrite Ep. cbn [bind]. rewrite Em. cbn [bind].
  destruct (B (f_code f) qs m1 (st_next st1)) as [[[m2 next2] res]| | | |]; reflexivity.
Qed.

(* ----- one parameter ----- *)
Lemma pass_mut n E H st v T : wf_heap H -> valid H T -> T <> h_value H -> v_arg v = Arg T LValue false ->
  pass (S n) E H st v (Arg T LValue false) = Ok (PRef (v_addr v), st).
Proof.
  intros W VT NT Ev. apply pass_lref; auto; unfold v_type; rewrite ?Ev; cbn; auto. constructor.
Qed.
Lemma pass_cref n E H st v T : wf_heap H -> valid H T -> T <> h_value H -> v_type v = T ->
  pass (S n) E H st v (Arg T LValue true) = Ok (PRef (v_addr v), st).
Proof.
  intros W VT NT Ev. apply pass_lref; auto; rewrite ?Ev; cbn; auto; [constructor|discriminate].
Qed.
Lemma pass_index n E H st x Z : wf_heap H -> h_value H <> h_void H -> valid H Z -> plumbed E H Z Z -> v_type x = Z ->
  exists code q, pass (S (S n)) E H st x (Arg Z Copy false) = Ok (PCopy (st_next st, 0%N), St (S (st_next st)) (st_log st ++ [(code, [q])])) /\
    (q = PRef (v_addr x) \/ q = PMove (v_addr x)).
Proof.
  intros W NV VZ PZ Ex. pose proof (pl_value _ _ _ _ PZ) as NZ.
  destruct (pass_one n E H st x (Arg Z Copy false)) as (q & st' & Ep & P); auto; try (rewrite Ex; auto).
  - right. cbn. split; auto. left. split; [constructor|]. split; [apply (pl_conv _ _ _ _ PZ)|auto].
  - inversion P; cbn in *; try discriminate; try congruence.
    + subst. rename H2 into Hc, H3 into Hq. eexists _, _. split; [exact Ep|]. intuition.
    + exfalso. apply H1. rewrite Ex. constructor.
Qed.

Lemma copy_of_number m a p : read m a = Some p -> copy_of m a = Ok (DData p).
Proof.
  unfold copy_of, get. intro E. rewrite E. unfold read in E. destruct (m (fst a)); try discriminate; reflexivity.
Qed.
Lemma ctors_index m st code q x p : read m (v_addr x) = Some p -> (q = PRef (v_addr x) \/ q = PMove (v_addr x)) ->
  run_ctors m (st_next st) (skipn (length (st_log st)) (st_log st ++ [(code, [q])])) = Ok (mset m (st_next st) (DData p)).
Proof.
  intros Er Q. rewrite skipn_app, skipn_all, Nat.sub_diag. cbn [skipn app run_ctors].
  destruct Q as [-> | ->]; rewrite (copy_of_number m _ p Er); reflexivity.
Qed.
Lemma ctors_none m st : run_ctors m (st_next st) (skipn (length (st_log st)) (st_log st)) = Ok m.
Proof. rewrite skipn_all. reflexivity. Qed.

(* ----- memory ----- *)
Lemma mset_same m o d : mset m o d o = d.
Proof. unfold mset. now rewrite Nat.eqb_refl. Qed.
Lemma mset_other m o d x : x <> o -> mset m o d x = m x.
Proof. intro N. unfold mset. destruct (Nat.eqb_spec x o); congruence. Qed.
Lemma born m next o : unborn m next -> m o <> DNone -> o < next.
Proof. intros U N. destruct (Nat.lt_ge_cases o next); auto. elim N. auto. Qed.
Lemma vec_of_ok m a l : contents m (fst a) l -> exists buf, vec_of m a = Ok (buf, l) /\ m (fst a) = DVec buf /\ m buf = DBuf l.
Proof. intros (buf & E1 & E2). exists buf. unfold vec_of. rewrite E1, E2. auto. Qed.
Lemma read_mset m next d a p : unborn m next -> read m a = Some p -> read (mset m next d) a = Some p.
Proof.
  intros U E. unfold read in *. destruct (Nat.eq_dec (fst a) next) as [Q|N]; [|now rewrite mset_other].
  rewrite Q, U in E by lia. discriminate.
Qed.
Lemma contents_mset m next d o l : unborn m next -> contents m o l -> contents (mset m next d) o l.
Proof.
  intros U (buf & E1 & E2). exists buf.
  assert (o < next) by (apply (born m); auto; congruence). assert (buf < next) by (apply (born m); auto; congruence).
  rewrite !mset_other by lia. auto.
Qed.
Lemma unborn_mset m next d : unborn m next -> unborn (mset m next d) (S next).
Proof. intros U o L. rewrite mset_other by lia. apply U. lia. Qed.
Lemma unborn_le m a b : unborn m a -> a <= b -> unborn m b.
Proof. intros U L o Lo. apply U. lia. Qed.
Lemma rebuf_spec m old next a l0 l : unborn m next -> m (fst a) = DVec old -> m old = DBuf l0 ->
  contents (rebuf m old next a l) (fst a) l /\ unborn (rebuf m old next a l) (S next) /\
  forall x, x <> fst a -> m (fst a) <> DVec x -> m x <> DNone -> rebuf m old next a l x = m x.
Proof.
  intros U E1 E2. assert (La : fst a < next) by (apply (born m); auto; congruence).
  assert (Lo : old < next) by (apply (born m); auto; congruence). unfold rebuf. split; [|split].
  - exists next. rewrite mset_same. split; auto. rewrite mset_other, mset_same by lia. auto.
  - intros o Lt. rewrite !mset_other by lia. apply U. lia.
  - intros x N1 N2 Nx. assert (x < next) by (apply (born m); auto). assert (x <> old) by congruence. rewrite !mset_other by lia. auto.
Qed.

Lemma resized_padded d l n : padded d l n (resized d l n).
Proof.
  unfold padded, resized. split.
  - rewrite app_length, firstn_length, repeat_length. lia.
  - intros i Hi. destruct (Nat.lt_ge_cases i (length l)) as [L|G].
    + rewrite nth_error_app1 by (rewrite firstn_length; lia). rewrite <- (firstn_skipn n l) at 2.
      rewrite app_nth1 by (rewrite firstn_length; lia). apply nth_error_nth'. rewrite firstn_length. lia.
    + rewrite (nth_overflow l) by lia. rewrite nth_error_app2 by (rewrite firstn_length; lia).
      rewrite (nth_error_nth' _ d). { f_equal. apply nth_repeat. } rewrite repeat_length, firstn_length. lia.
Qed.
Lemma padded_unique d l n l1 l2 : padded d l n l1 -> padded d l n l2 -> l1 = l2.
Proof.
  intros (L1 & N1) (L2 & N2). apply nth_ext with (d := d) (d' := d); [lia|]. intros i Hi.
  assert (Some (nth i l1 d) = Some (nth i l2 d)) as Q; [|congruence].
  rewrite <- !nth_error_nth' by lia. rewrite N1, N2 by lia. reflexivity.
Qed.

Lemma set_at_length l i p : length (set_at l i p) = length l.
Proof. revert i; induction l as [|x l IH]; intros [|i]; cbn; auto. Qed.
Lemma set_at_same l i p : i < length l -> nth_error (set_at l i p) i = Some p.
Proof. revert i; induction l as [|x l IH]; intros [|i]; cbn; intro; try lia; auto. apply IH. lia. Qed.
Lemma set_at_other l i p j : j <> i -> nth_error (set_at l i p) j = nth_error l j.
Proof. revert i j; induction l as [|x l IH]; intros [|i] [|j]; cbn; intro; try congruence; auto. Qed.

Lemma element_write m o buf l i p : m o = DVec buf -> m buf = DBuf l -> i < length l ->
  exists l', contents (write m (buf, N.of_nat i) p) o l' /\ length l' = length l /\
    nth_error l' i = Some p /\ forall j, j <> i -> nth_error l' j = nth_error l j.
Proof.
  intros E1 E2 Hi. assert (o <> buf) by (intros ->; congruence). unfold write. cbn [fst snd]. rewrite E2, Nat2N.id. exists (set_at l i p). split.
  - exists buf. rewrite mset_other, mset_same by auto. auto.
  - split; [apply set_at_length|]. split; [now apply set_at_same|]. intros. now apply set_at_other.
Qed.
