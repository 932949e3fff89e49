(* ProofPlain2.v - the calls of C72 on a plain type as its reflection leaves it. *)
From Coq Require String.
Import String.StringSyntax.
From Verif Require Import Base ModelCore SpecCore ProofCore ProofMatch ModelValue SpecValue ProofValue ModelPlumb SpecPlumb ProofPlumb ProofPlumb2 ProofPlumb3 ModelCont SpecCont ProofCont ProofCont2 ModelPtr SpecPtr ProofPtr ProofPtr2 ModelPlain SpecPlain ProofPlain.

Lemma alloc_extension H T PT id k b rs : id <> lit "new" -> valid H T -> valid H PT ->
  extension_ok H T id rs (allocPlumbing T PT k b) /\
  (forall ret args code, ~ In (RFn id ret args code) (allocPlumbing T PT k b)).
Proof.
  intros N1 VT VP.
  assert (NC : forall ret args code, ~ In (RFn id ret args code) (allocPlumbing T PT k b)).
  { intros ret args code I. unfold allocPlumbing, when in I.
    destruct (k_def k), (k_copy k), (k_move k); cbn -[lit] in I; in_cases I; injection I; intros; congruence. }
  split; [|exact NC].
  assert (D1 : converterName id <> lit "new") by discriminate. unfold allocPlumbing, when in *.
  destruct (k_def k), (k_copy k), (k_move k); cbn -[lit]; ext_tac; intros ret args code I; exfalso; eapply NC; exact I.
Qed.

Section Plain.
Context (E : cpp) (H : heap) (K : plain) (x : more) (T PT R : tptr) (nk : numkind) (id : str).
Context (PN : plain_type E H K x T PT R nk id).
Notation b := (p_base K).
Notation k := (Caps true true true true true).
Notation rs := (plain_regs x id T PT R nk b).
Definition plain_ext : list reg :=
  match x with XNumber _ => number_ext T PT R nk b | XString _ => string_ext T PT R b | XClass => allocPlumbing T PT k (b + 5) end.

Lemma pn_W : wf_heap H. Proof. exact (pn_wf _ _ _ _ _ _ _ _ _ PN). Qed.
Lemma pn_NV : h_value H <> h_void H. Proof. exact (proj1 (pn_apart _ _ _ _ _ _ _ _ _ PN)). Qed.
Lemma pn_T : T <> h_void H /\ T <> h_value H.
Proof. pose proof (proj2 (pn_apart _ _ _ _ _ _ _ _ _ PN)) as A. now inversion A. Qed.
Lemma pn_PT : PT <> h_void H /\ PT <> h_value H.
Proof. pose proof (proj2 (pn_apart _ _ _ _ _ _ _ _ _ PN)) as A. inversion A as [|? ? _ A1]. now inversion A1. Qed.
Lemma pn_R : R <> h_void H /\ R <> h_value H.
Proof. pose proof (proj2 (pn_apart _ _ _ _ _ _ _ _ _ PN)) as A. inversion A as [|? ? _ A1]. inversion A1 as [|? ? _ A2]. now inversion A2. Qed.
Lemma pn_Tv : valid H T.
Proof. destruct (pn_carries _ _ _ _ _ _ _ _ _ PN) as (t & Et & _). eapply tget_valid; eauto. Qed.
Lemma pn_not n : In n [lit "operator="; lit "new"; lit "operator+"; lit "size"] -> id <> n.
Proof. intros I ->. exact (pn_id _ _ _ _ _ _ _ _ _ PN I). Qed.
Lemma pn_rs : rs = plumbing id T k b ++ plain_ext.
Proof. unfold plain_regs, plain_ext, number, stdString, number_ext, string_ext. now destruct x. Qed.
Lemma pn_plumbed_body : plumbed_body H T id k b rs [].
Proof.
  destruct (pn_valid _ _ _ _ _ _ _ _ _ PN) as (VP & VR). rewrite pn_rs.
  assert (X : extension_ok H T id rs plain_ext /\ (forall ret args code, ~ In (RFn id ret args code) plain_ext)).
  { assert (I : id <> lit "operator=" /\ id <> lit "new" /\ id <> lit "operator+" /\ id <> lit "size")
      by (repeat split; apply pn_not; cbn -[lit]; tauto).
    pose proof pn_Tv as VT. unfold plain_ext. destruct x.
    - apply number_extension; tauto.
    - apply string_extension; tauto.
    - apply alloc_extension; tauto. }
  destruct X as (X & Y). eapply extension_plumbed; eauto. rewrite <- pn_rs. exact (pn_carries _ _ _ _ _ _ _ _ _ PN).
Qed.
Lemma pn_assign : id <> lit "operator=".
Proof. apply pn_not. now left. Qed.
Lemma pn_function n l : n <> id -> n <> lit "operator=" -> fns_of n plain_ext = l -> l <> [] -> function H T n = Ok l.
Proof.
  intros N1 N2 El Nl. pose proof (carries_function H T id _ n (pn_carries _ _ _ _ _ _ _ _ _ PN) pn_W) as (F & _).
  assert (Q : fns_of n rs = l).
  { rewrite pn_rs. rewrite fns_of_app, (fns_of_none n (plumbing id T k b)); [exact El|].
    intros ret args code I. apply plumbing_names in I as [?|?]; congruence. }
  rewrite Q in F. now apply F.
Qed.

Section Call.
Context (n : nat) (m : mem) (st : state) (U : unborn m (st_next st)).
Notation Bd := (plain_body K x).

(* what a call leaves; news: the object it made *)
Definition done (op : plainop) (w : value) (m' : mem) (st' : state) : Prop :=
  unborn m' (st_next st') /\
  plain_result x T PT R m m' op w (new_of op m' w) /\
  (forall p, made K (raw_of K x) op (read m) = Some p -> read m' (new_of op m' w) = Some p) /\
  (forall c, m (fst c) <> DNone -> read m' c = after K op (read m) c) /\
  (forall y, m y <> DNone -> (forall i, ~ touched op (y, i)) -> m' y = m y).

Lemma sub_base i : b + i - b = i. Proof. lia. Qed.
Lemma not_next y : m y <> DNone -> y <> st_next st.
Proof. intros N ->. apply N. apply U. lia. Qed.

Ltac nms := cbn -[lit]; rewrite ?str_eqb_refl; reflexivity.
Lemma fn_new_class : x = XClass -> function H T (lit "new") =
  Ok [Fn (lit "new") (Arg PT Copy false) [] (b + 5); Fn (lit "new") (Arg PT Copy false) [Arg T LValue true] (b + 5 + 1); Fn (lit "new") (Arg PT Copy false) [Arg T RValue false] (b + 5 + 2)].
Proof.
  intros Ex. apply pn_function; [intro Q; symmetry in Q; revert Q; apply pn_not; cbn -[lit]; tauto|discriminate| |discriminate].
  unfold plain_ext. rewrite Ex. reflexivity.
Qed.
Lemma fn_new_other : x <> XClass -> function H T (lit "new") = Ok [Fn (lit "new") (Arg PT Copy false) [] (b + 5)].
Proof.
  intros Ex. apply pn_function; [intro Q; symmetry in Q; revert Q; apply pn_not; cbn -[lit]; tauto|discriminate| |discriminate].
  unfold plain_ext. destruct x; [destruct nk; reflexivity|reflexivity|congruence].
Qed.
Lemma fn_plus ar : x = XNumber ar -> function H T (lit "operator+") = Ok [Fn (lit "operator+") (Arg R Copy false) [Arg T LValue true; Arg T Copy false] (b + 6)].
Proof.
  intros Ex. apply pn_function; [intro Q; symmetry in Q; revert Q; apply pn_not; cbn -[lit]; tauto|discriminate| |discriminate].
  unfold plain_ext. rewrite Ex. destruct nk; reflexivity.
Qed.
Lemma fn_size sz : x = XString sz -> function H T (lit "size") = Ok [Fn (lit "size") (Arg R Copy false) [Arg T LValue true] (b + 6)].
Proof.
  intros Ex. apply pn_function; [intro Q; symmetry in Q; revert Q; apply pn_not; cbn -[lit]; tauto|discriminate| |discriminate].
  unfold plain_ext. rewrite Ex. reflexivity.
Qed.

(* new: which allocator *)
Lemma alloc_new nn : mtype_call Bd (S nn) E H m st T (lit "new") [] =
  bind (Bd (b + 5) [] m (st_next st)) (finish E H (Fn (lit "new") (Arg PT Copy false) [] (b + 5)) [] (st_log st)).
Proof.
  destruct pn_PT as (P1 & P2). pose proof pn_NV as NV.
  assert (Ts : test_sig H (Fn (lit "new") (Arg PT Copy false) [] (b + 5)) (ret_value H) (map v_arg []) = Ok MExact) by exact (pl_test0 H PT P1 P2 NV (lit "new") Copy false (b + 5)).
  assert (D : x = XClass \/ x <> XClass) by (destruct x; [right|right|left]; congruence). destruct D as [Ex|Ex].
  - apply (mtype_chosen Bd (S nn) E H m st T (lit "new") [] _ _ MExact [] st m (fn_new_class Ex)) with (2 := Ts); [|discriminate|reflexivity|apply ctors_none].
    unfold overloads_resolve. cbn [resolve_loop]. rewrite Ts. reflexivity.
  - apply (mtype_chosen Bd (S nn) E H m st T (lit "new") [] _ _ MExact [] st m (fn_new_other Ex)) with (2 := Ts); [|discriminate|reflexivity|apply ctors_none].
    rewrite (resolve_one _ _ _ _ _ Ts). reflexivity.
Qed.
Lemma grade_T r c r' c' : isConvertibleTo H (Arg T r c) (Arg T r' c') = Ok (same_grade (Arg T r c) (Arg T r' c')).
Proof. exact (pb_grade H T id b rs pn_W pn_plumbed_body r c r' c'). Qed.
Lemma alloc_copy nn v : x = XClass -> v_type v = T -> ~ gives v -> mtype_call Bd (S nn) E H m st T (lit "new") [v] =
  bind (Bd (b + 5 + 1) [PRef (v_addr v)] m (st_next st)) (finish E H (Fn (lit "new") (Arg PT Copy false) [Arg T LValue true] (b + 5 + 1)) [PRef (v_addr v)] (st_log st)).
Proof.
  intros Ex Tv Gv. destruct pn_PT as (P1 & P2), pn_T as (T1 & T2). pose proof pn_NV as NV. pose proof pn_Tv as VT. pose proof (arg_of v T Tv) as Ea.
  assert (Ts : forall r c code, test_sig H (Fn (lit "new") (Arg PT Copy false) [Arg T r c] code) (ret_value H) (map v_arg [v]) = Ok (same_grade (v_arg v) (Arg T r c))).
  { intros r c code. cbn [map]. rewrite test_one by auto. rewrite Ea at 1. rewrite grade_T. now rewrite <- Ea. }
  assert (T0 : test_sig H (Fn (lit "new") (Arg PT Copy false) [] (b + 5)) (ret_value H) (map v_arg [v]) = Ok MNone) by (apply test_arity; auto; discriminate).
  assert (Ng : same_grade (v_arg v) (Arg T LValue true) <> MNone) by (rewrite Ea; apply cref_grade).
  assert (Gm : same_grade (v_arg v) (Arg T RValue false) = MNone).
  { unfold same_grade. cbn [a_ref a_const ref_eqb]. destruct (ref_eqb (a_ref (v_arg v)) RValue && negb (a_const (v_arg v))) eqn:G; [elim Gv; now apply gives_bool|].
    destruct (a_ref (v_arg v)), (a_const (v_arg v)); try discriminate; reflexivity. }
  apply (mtype_chosen Bd (S nn) E H m st T (lit "new") [v] _ (Fn (lit "new") (Arg PT Copy false) [Arg T LValue true] (b + 5 + 1)) _ [PRef (v_addr v)] st m (fn_new_class Ex)) with (2 := Ts LValue true (b + 5 + 1)) (3 := Ng); [| |apply ctors_none].
  - unfold overloads_resolve. cbn [resolve_loop]. rewrite T0. cbn [bind grade_eqb]. rewrite (Ts LValue true). cbn [bind].
    destruct (same_grade (v_arg v) (Arg T LValue true)) eqn:Q; [congruence| |reflexivity]. cbn [grade_eqb andb]. rewrite (Ts RValue false), Gm. reflexivity.
  - cbn [f_args pass_all]. rewrite pass_cref by auto using pn_W. reflexivity.
Qed.
Lemma alloc_move nn v : x = XClass -> v_type v = T -> gives v -> mtype_call Bd (S nn) E H m st T (lit "new") [v] =
  bind (Bd (b + 5 + 2) [PMove (v_addr v)] m (st_next st)) (finish E H (Fn (lit "new") (Arg PT Copy false) [Arg T RValue false] (b + 5 + 2)) [PMove (v_addr v)] (st_log st)).
Proof.
  intros Ex Tv Gv. destruct pn_PT as (P1 & P2), pn_T as (T1 & T2). pose proof pn_NV as NV. pose proof pn_Tv as VT. pose proof (arg_of v T Tv) as Ea.
  assert (Ts : forall r c code, test_sig H (Fn (lit "new") (Arg PT Copy false) [Arg T r c] code) (ret_value H) (map v_arg [v]) = Ok (same_grade (v_arg v) (Arg T r c))).
  { intros r c code. cbn [map]. rewrite test_one by auto. rewrite Ea at 1. rewrite grade_T. now rewrite <- Ea. }
  assert (T0 : test_sig H (Fn (lit "new") (Arg PT Copy false) [] (b + 5)) (ret_value H) (map v_arg [v]) = Ok MNone) by (apply test_arity; auto; discriminate).
  assert (G1 : same_grade (v_arg v) (Arg T LValue true) = MPartial) by (unfold same_grade; destruct Gv as (-> & ->); reflexivity).
  assert (G2 : same_grade (v_arg v) (Arg T RValue false) = MExact) by (unfold same_grade; destruct Gv as (-> & ->); reflexivity).
  assert (Ng : same_grade (v_arg v) (Arg T RValue false) <> MNone) by (rewrite G2; discriminate).
  apply (mtype_chosen Bd (S nn) E H m st T (lit "new") [v] _ (Fn (lit "new") (Arg PT Copy false) [Arg T RValue false] (b + 5 + 2)) _ [PMove (v_addr v)] st m (fn_new_class Ex)) with (2 := Ts RValue false (b + 5 + 2)) (3 := Ng); [| |apply ctors_none].
  - unfold overloads_resolve. cbn [resolve_loop]. rewrite T0. cbn [bind grade_eqb]. rewrite (Ts LValue true). cbn [bind].
    rewrite G1. cbn [grade_eqb andb]. rewrite (Ts RValue false), G2. reflexivity.
  - cbn [f_args pass_all]. pose proof (pb_movable H T id b rs pn_W pn_plumbed_body pn_assign T2). destruct (pn_cpp _ _ _ _ _ _ _ _ _ PN) as (_ & Cm & _).
    rewrite pass_rref; [cbn [bind]; reflexivity|..]; rewrite ?Tv; cbn [a_type a_ref]; auto using pn_W. constructor.
Qed.

Lemma st_T : cpp_movable E T || cpp_copyable E T = true.
Proof. destruct (pn_cpp _ _ _ _ _ _ _ _ _ PN) as (C & _). rewrite C. apply orb_true_r. Qed.
Lemma st_PT : cpp_movable E PT || cpp_copyable E PT = true.
Proof. destruct (pn_cpp _ _ _ _ _ _ _ _ _ PN) as (_ & _ & C & _). rewrite C. apply orb_true_r. Qed.
Lemma st_R : cpp_movable E R || cpp_copyable E R = true.
Proof. destruct (pn_cpp _ _ _ _ _ _ _ _ _ PN) as (_ & _ & _ & C). rewrite C. apply orb_true_r. Qed.
Lemma readable (h : store) a : Forall (fun a => h a <> None) [a] -> exists p : N, h a = Some p.
Proof. intros F. inversion F as [|? ? Q _]. destruct (h a); [eauto|congruence]. Qed.
Lemma readable2 (h : store) a c : Forall (fun a => h a <> None) [a; c] -> exists p q : N, h a = Some p /\ h c = Some q.
Proof. intros F. inversion F as [|? ? Q F1]. apply readable in F1 as (q & Eq). destruct (h a) eqn:Ea; [eauto|congruence]. Qed.

(* an object made on top of m1, which is m with some of its values changed *)
Lemma done_new op m1 log d p w m' : m' = mset m1 (st_next st) (DData d) -> w = Val (Arg T LValue false) (st_next st, 0%N) true ->
  unborn m1 (st_next st) -> match op with PNew | PCopyOf _ | PMoveOf _ => True | _ => False end ->
  made K (raw_of K x) op (read m) = Some p -> d = p ->
  (forall c, m (fst c) <> DNone -> read m1 c = after K op (read m) c) ->
  (forall y, m y <> DNone -> (forall i, ~ touched op (y, i)) -> m1 y = m y) ->
  done op w m' (St (S (st_next st)) log).
Proof.
  intros -> -> U1 Op Em -> A F. assert (Nw : new_of op (mset m1 (st_next st) (DData p)) (Val (Arg T LValue false) (st_next st, 0%N) true) = (st_next st, 0%N)) by (destruct op; try contradiction; reflexivity).
  split; [|split; [|split; [|split]]]; rewrite ?Nw; cbn [st_next].
  - now apply unborn_mset.
  - assert (Ow : owns_new T m (Val (Arg T LValue false) (st_next st, 0%N) true)) by (repeat split; cbn; apply U; lia). destruct op; try contradiction; split; auto.
  - rewrite Em. intros p' [= <-]. apply read_fresh.
  - intros c Nc. rewrite read_mset_other by now apply not_next. auto.
  - intros y Ny Nt. rewrite mset_other by now apply not_next. auto.
Qed.
Lemma done_alloc op m1 log d p w m' : m' = mset (mset m1 (st_next st) (DData d)) (S (st_next st)) (DPtr (Some (st_next st, 0%N))) ->
  w = Val (Arg PT LValue false) (S (st_next st), 0%N) true ->
  unborn m1 (st_next st) -> match op with PAlloc | PAllocCopy _ | PAllocMove _ => True | _ => False end ->
  made K (raw_of K x) op (read m) = Some p -> d = p ->
  (forall c, m (fst c) <> DNone -> read m1 c = after K op (read m) c) ->
  (forall y, m y <> DNone -> (forall i, ~ touched op (y, i)) -> m1 y = m y) ->
  done op w m' (St (S (S (st_next st))) log).
Proof.
  intros -> -> U1 Op Em -> A F. set (m' := mset (mset m1 (st_next st) (DData p)) (S (st_next st)) (DPtr (Some (st_next st, 0%N)))).
  assert (Nw : new_of op m' (Val (Arg PT LValue false) (S (st_next st), 0%N) true) = (st_next st, 0%N)).
  { unfold new_of. cbn [v_addr fst]. unfold m'. rewrite mset_same. destruct op; try contradiction; reflexivity. }
  assert (Nn : forall y, m y <> DNone -> y <> S (st_next st)) by (intros y Ny ->; apply Ny; apply U; lia).
  split; [|split; [|split; [|split]]]; rewrite ?Nw; cbn [st_next].
  - unfold m'. now apply unborn_mset, unborn_mset.
  - assert (Ow : owns_pointer PT m' (Val (Arg PT LValue false) (S (st_next st), 0%N) true) (Some (st_next st, 0%N))).
    { repeat split. cbn. unfold m'. apply mset_same. }
    assert (G : owns_pointer PT m' (Val (Arg PT LValue false) (S (st_next st), 0%N) true) (Some (st_next st, 0%N)) /\ m (S (st_next st)) = DNone /\ m (st_next st) = DNone /\ st_next st <> S (st_next st)).
    { split; [exact Ow|]. split; [apply U; lia|]. split; [apply U; lia|lia]. }
    destruct op; try contradiction; exact G.
  - rewrite Em. intros p' [= <-]. unfold m'. rewrite read_mset_other by (cbn; lia). apply read_fresh.
  - intros c Nc. unfold m'. rewrite !read_mset_other by auto using not_next. auto.
  - intros y Ny Nt. unfold m'. rewrite !mset_other by auto using not_next. auto.
Qed.
Lemma done_assign op m1 log a w : w = Val (Arg T LValue false) a false ->
  unborn m1 (st_next st) -> match op with PAssign c _ | PMoveAssign c _ => a = c | _ => False end ->
  (forall c, m (fst c) <> DNone -> read m1 c = after K op (read m) c) ->
  (forall y, m y <> DNone -> (forall i, ~ touched op (y, i)) -> m1 y = m y) ->
  done op w m1 (St (st_next st) log).
Proof.
  intros -> U1 Op A F. split; [|split; [|split; [|split]]]; cbn [st_next]; auto.
  - destruct op; try contradiction; subst; repeat split.
  - intros p Em. destruct op; try contradiction; discriminate.
Qed.

Lemma put_same h a p : put h a p a = p.
Proof. unfold put. now rewrite same_refl. Qed.
Lemma put_other h a p c : c <> a -> put h a p c = h c.
Proof. intros N. unfold put. now rewrite same_neq by auto. Qed.
Lemma after_write op a d : read m a <> None -> (forall c, after K op (read m) c = put (read m) a (Some d) c) ->
  forall c, m (fst c) <> DNone -> read (write m a d) c = after K op (read m) c.
Proof. intros Ra Q c _. rewrite read_write by auto. now rewrite Q. Qed.
Lemma frame_write op a d : touched op a -> forall y, m y <> DNone -> (forall i, ~ touched op (y, i)) -> write m a d y = m y.
Proof. intros Ta y Ny Nt. apply write_frame. intros ->. apply (Nt (snd a)). now destruct a. Qed.

Theorem do_plain op name args : wants T id op name args -> plain_ok x (read m) op ->
  exists w m' st', mtype_call Bd (S (S n)) E H m st T name args = Ok (w, m', st') /\ done op w m' st'.
Proof.
  intros A (Of & Rd & Sm). destruct pn_T as (T1 & T2), pn_PT as (P1 & P2), pn_R as (R1 & R2). pose proof pn_W as W. pose proof pn_NV as NV. pose proof pn_plumbed_body as PB. pose proof pn_assign as NA.
  destruct (pn_cpp _ _ _ _ _ _ _ _ _ PN) as (Cc & Cm & _).
  destruct A as [|v a (Tv & Av) Gv|v a (Tv & Av) Gv|v a v' c Ea Av (Tv' & Av') Gv|v a v' c Ea Av (Tv' & Av') Gv| |v a (Tv & Av) Gv|v a (Tv & Av) Gv|v a v' c (Tv & Av) (Tv' & Av')|v a (Tv & Av)]; cbn [reads] in Rd.
  - rewrite (pb_new E H T id b rs W PB NA NV T1 T2). unfold plain_body. rewrite sub_base. cbn [bind].
    edestruct (finish_new E H (Fn id (Arg T Copy false) [] b)) as (log & Ef); [reflexivity|exact T1|exact T2|exact st_T|]. rewrite Ef.
    do 3 eexists. split; [reflexivity|]. eapply done_new; try reflexivity; auto.
  - apply readable in Rd as (p & Rp). rewrite (pb_copy E H T id b rs W PB NA NV T1 T2) by auto. unfold plain_body. rewrite sub_base, Av, (get_read _ _ _ Rp). cbn [bind].
    edestruct (finish_new E H (Fn id (Arg T Copy false) [Arg T LValue true] (b + 1))) as (log & Ef); [reflexivity|exact T1|exact T2|exact st_T|]. rewrite Ef.
    do 3 eexists. split; [reflexivity|]. eapply done_new; try reflexivity; auto.
  - apply readable in Rd as (p & Rp). rewrite (pb_move E H T id b rs W PB NA NV T1 T2 Cm) by auto. unfold plain_body. rewrite sub_base, Av, (get_read _ _ _ Rp). cbn [bind].
    edestruct (finish_new E H (Fn id (Arg T Copy false) [Arg T RValue false] (b + 3))) as (log & Ef); [reflexivity|exact T1|exact T2|exact st_T|]. rewrite Ef.
    assert (Ra : read m a <> None) by congruence.
    do 3 eexists. split; [reflexivity|]. eapply done_new; try reflexivity; auto using write_unborn.
    + apply after_write; auto. intros c. cbn [after]. rewrite Rp. reflexivity.
    + apply frame_write. reflexivity.
  - apply readable2 in Rd as (q & p & Rq & Rp). rewrite (pb_assign E H T id b rs W PB NA NV T1 T2) by auto. unfold plain_body. rewrite sub_base, Av, Av', (get_read _ _ _ Rp), (get_read _ _ _ Rq). cbn [bind].
    edestruct (finish_ref E H (Fn (lit "operator=") (Arg T LValue false) [Arg T LValue false; Arg T LValue true] (b + 2))) as (log & Ef); [reflexivity|exact T1|exact T2|]. rewrite Ef.
    assert (Ra : read m a <> None) by congruence.
    do 3 eexists. split; [reflexivity|]. eapply done_assign; try reflexivity; auto using write_unborn.
    + apply after_write; auto. intros c0. cbn [after]. rewrite Rp. reflexivity.
    + apply frame_write. reflexivity.
  - apply readable2 in Rd as (q & p & Rq & Rp). rewrite (pb_move_assign E H T id b rs W PB NA NV T1 T2 Cm) by auto. unfold plain_body. rewrite sub_base, Av, Av', (get_read _ _ _ Rp), (get_read _ _ _ Rq). cbn [bind].
    edestruct (finish_ref E H (Fn (lit "operator=") (Arg T LValue false) [Arg T LValue false; Arg T RValue false] (b + 4))) as (log & Ef); [reflexivity|exact T1|exact T2|]. rewrite Ef.
    assert (Ra : read m a <> None) by congruence. assert (Rc : read (write m a p) c <> None).
    { rewrite read_write by auto. unfold put. destruct (same c a); congruence. }
    do 3 eexists. split; [reflexivity|]. eapply done_assign; try reflexivity; auto using write_unborn.
    + intros c0 _. rewrite read_write by auto. cbn [after]. rewrite Rp. cbn [option_map]. unfold put at 1. unfold put at 1. destruct (same c0 c); [reflexivity|]. rewrite read_write by auto. reflexivity.
    + intros y Ny Nt. rewrite !write_frame; auto.
      * intros ->. apply (Nt (snd a)). left. now destruct a.
      * intros ->. apply (Nt (snd c)). right. now destruct c.
  - rewrite alloc_new.
    assert (Eb : Bd (b + 5) [] m (st_next st) = Ok (mset m (st_next st) (DData (raw_of K x)), S (st_next st), RNew (DPtr (Some (st_next st, 0%N))))).
    { unfold plain_body. rewrite sub_base. unfold raw_of. now destruct x. }
    rewrite Eb. cbn [bind].
    edestruct (finish_new E H (Fn (lit "new") (Arg PT Copy false) [] (b + 5))) as (log & Ef); [reflexivity|exact P1|exact P2|exact st_PT|]. rewrite Ef.
    do 3 eexists. split; [reflexivity|]. eapply done_alloc; try reflexivity; auto.
  - assert (Ex : x = XClass) by (cbn in Of; destruct x; tauto). apply readable in Rd as (p & Rp). rewrite alloc_copy by auto.
    assert (Eb : Bd (b + 5 + 1) [PRef (v_addr v)] m (st_next st) = Ok (mset m (st_next st) (DData p), S (st_next st), RNew (DPtr (Some (st_next st, 0%N))))).
    { unfold plain_body. rewrite <- Nat.add_assoc, sub_base, Ex, Av, (get_read _ _ _ Rp). reflexivity. }
    rewrite Eb. cbn [bind].
    edestruct (finish_new E H (Fn (lit "new") (Arg PT Copy false) [Arg T LValue true] (b + 5 + 1))) as (log & Ef); [reflexivity|exact P1|exact P2|exact st_PT|]. rewrite Ef.
    do 3 eexists. split; [reflexivity|]. eapply done_alloc; try reflexivity; auto.
  - assert (Ex : x = XClass) by (cbn in Of; destruct x; tauto). apply readable in Rd as (p & Rp). rewrite alloc_move by auto.
    assert (Eb : Bd (b + 5 + 2) [PMove (v_addr v)] m (st_next st) = Ok (mset (write m a (p_moved K p)) (st_next st) (DData p), S (st_next st), RNew (DPtr (Some (st_next st, 0%N))))).
    { unfold plain_body. rewrite <- Nat.add_assoc, sub_base, Ex, Av, (get_read _ _ _ Rp). reflexivity. }
    rewrite Eb. cbn [bind].
    edestruct (finish_new E H (Fn (lit "new") (Arg PT Copy false) [Arg T RValue false] (b + 5 + 2))) as (log & Ef); [reflexivity|exact P1|exact P2|exact st_PT|]. rewrite Ef.
    assert (Ra : read m a <> None) by congruence.
    do 3 eexists. split; [reflexivity|]. eapply done_alloc; try reflexivity; auto using write_unborn.
    + apply after_write; auto. intros c. cbn [after]. rewrite Rp. reflexivity.
    + apply frame_write. reflexivity.
  - assert (Ex : exists ar, x = XNumber ar) by (cbn in Of; destruct x; try tauto; eauto). destruct Ex as (ar & Ex).
    apply readable2 in Rd as (p & q & Rp & Rq).
    assert (Fit : sum_fits ar p q) by (rewrite Ex in Sm; auto). apply sum_ok in Fit as (r & Er & Ir).
    assert (Rq' : read m (v_addr v') = Some q) by congruence.
    destruct (pb_call2v E H T id b rs W PB NA NV T1 T2 Cm Cc Bd n m st _ _ _ v v' q (fn_plus ar Ex) R2 Tv Tv' Rq') as (log & ->).
    assert (Eb : Bd (b + 6) [PRef (v_addr v); PCopy (st_next st, 0%N)] (mset m (st_next st) (DData q)) (S (st_next st)) = Ok (mset m (st_next st) (DData q), S (st_next st), RNew (DData r))).
    { unfold plain_body. rewrite sub_base, Ex, Av. erewrite get_read by (apply read_mset; eauto). cbn [bind]. erewrite get_read by apply read_fresh. cbn [bind]. rewrite Er. reflexivity. }
    rewrite Eb. cbn [bind].
    edestruct (finish_new E H (Fn (lit "operator+") (Arg R Copy false) [Arg T LValue true; Arg T Copy false] (b + 6))) as (log' & Ef); [reflexivity|exact R1|exact R2|exact st_R|]. rewrite Ef.
    assert (Nn : forall y, m y <> DNone -> y <> S (st_next st)) by (intros y Ny ->; apply Ny; apply U; lia).
    do 3 eexists. split; [reflexivity|]. split; [|split; [|split; [|split]]]; cbn [st_next].
    + now apply unborn_mset, unborn_mset.
    + cbn [plain_result]. exists r. split; [repeat split; cbn; apply mset_same|]. intros ar' p' q' Q Rp' Rq''. rewrite Ex in Q. injection Q as <-. rewrite Rp in Rp'. rewrite Rq in Rq''. injection Rp' as <-. injection Rq'' as <-. exact Ir.
    + discriminate.
    + intros c0 Nc. rewrite !read_mset_other by auto using not_next. reflexivity.
    + intros y Ny _. now rewrite !mset_other by auto using not_next.
  - assert (Ex : exists sz, x = XString sz) by (cbn in Of; destruct x; try tauto; eauto). destruct Ex as (sz & Ex).
    apply readable in Rd as (p & Rp).
    rewrite (pb_call1c E H T id b rs W PB NV T2 Bd (S n) m st (lit "size") (Arg R Copy false) (b + 6) v (fn_size sz Ex) R2 Tv).
    assert (Eb : Bd (b + 6) [PRef (v_addr v)] m (st_next st) = Ok (m, st_next st, RNew (DData (sz p)))).
    { unfold plain_body. rewrite sub_base, Ex, Av, (get_read _ _ _ Rp). reflexivity. }
    rewrite Eb. cbn [bind].
    edestruct (finish_new E H (Fn (lit "size") (Arg R Copy false) [Arg T LValue true] (b + 6))) as (log' & Ef); [reflexivity|exact R1|exact R2|exact st_R|]. rewrite Ef.
    do 3 eexists. split; [reflexivity|]. split; [|split; [|split; [|split]]]; cbn [st_next].
    + now apply unborn_mset.
    + cbn [plain_result]. exists (sz p). split; [repeat split; cbn; apply mset_same|]. intros sz' p' Q Rp'. rewrite Ex in Q. injection Q as <-. rewrite Rp in Rp'. now injection Rp' as <-.
    + discriminate.
    + intros c0 Nc. rewrite !read_mset_other by auto using not_next. reflexivity.
    + intros y Ny _. now rewrite !mset_other by auto using not_next.
Qed.
End Call.
End Plain.
