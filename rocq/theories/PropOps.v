(* PropOps.v - C73: calls that ask for a C++ result, and the operators of Value. *)
From Coq Require String.
Import String.StringSyntax.
From Verif Require Import Base ModelCore SpecCore ProofCore ModelValue SpecValue ProofValue ProofMatch ModelPlumb SpecPlumb ProofPlumb2
  ModelCont SpecCont ProofCont ProofCont2 ModelPtr SpecPtr ProofPtr ProofPtr2 ProofPtr3 ProofPtr4 ModelPlain SpecPlain ProofPlain ProofPlain2 ModelOps SpecOps ProofOps
  PropCont PropPtr PropPlain.
Local Open Scope outcome_scope.

(* A call that asks for a result its function can give does what the untyped call
   does, and hands over that result: a copy of it, a reference to it, or nothing. *)
Theorem c73_typed : forall B n E H m st T name os want vs w m1 st1,
  wf_heap H -> h_value H <> h_void H -> function H T name = Ok os -> askable E H want ->
  (forall f, In f os -> returns H f want) ->
  mtype_call B (S (S n)) E H m st T name vs = Ok (w, m1, st1) -> unborn m1 (st_next st1) ->
  (a_type want <> h_void H -> a_ref want = Copy -> exists d, item m1 (v_addr w) d) ->
  exists r m2 st2, mtype_call_ret B (S (S n)) E H m st T name want vs = Ok (r, m2, st2) /\
    unborn m2 (st_next st2) /\ delivered H m1 w want r m2.
Proof. intros B n E H m st T name os want vs w m1 st1 W NV Fo A R. now apply (typed_ok B n E H m st T name os want vs W NV Fo A R). Qed.
Print Assumptions c73_typed.
(* and fails when it does *)
Theorem c73_typed_fails : forall B n E H m st T name os want vs,
  wf_heap H -> h_value H <> h_void H -> function H T name = Ok os -> askable E H want ->
  (forall f, In f os -> returns H f want) ->
  (mtype_call B n E H m st T name vs = Abort -> mtype_call_ret B n E H m st T name want vs = Abort) /\
  (mtype_call B n E H m st T name vs = UB -> mtype_call_ret B n E H m st T name want vs = UB).
Proof.
  intros B n E H m st T name os want vs W NV Fo A R.
  split; [exact (typed_fails B E H m st T name os want vs W NV Fo A R n)|exact (typed_ub B E H m st T name os want vs W NV Fo A R n)].
Qed.
Print Assumptions c73_typed_fails.

(* nothing to give back, or something that is not a want: refused before anything runs *)
Theorem c73_refused : forall B n E H m st T name os want vs,
  wf_heap H -> function H T name = Ok os -> Forall (fn_valid H) os -> arg_valid H want -> Forall (fun v => valid H (v_type v)) vs ->
  a_type want <> h_void H -> a_type want <> h_value H ->
  (forall f, In f os -> a_type (f_ret f) = h_void H \/
     (a_type (f_ret f) <> h_value H /\ ~ Subtype H (a_type (f_ret f)) (a_type want) /\ ~ has_user_conversion H (a_type (f_ret f)) (a_type want))) ->
  mtype_call_ret B n E H m st T name want vs = Abort.
Proof.
  intros B n E H m st T name os want vs W Fo Fv Av Vv N1 N2 Q. eapply for_none; [exact Fo| |].
  - intros f I. rewrite Forall_forall in Fv. apply test_sig_total; auto. rewrite Forall_forall in *. intros a J. apply in_map_iff in J as (v & <- & J). apply Vv, J.
  - intros f I. unfold testReturn. rewrite (nat_eqb_neq _ _ N1). destruct (Nat.eqb_spec (a_type (f_ret f)) (h_void H)) as [D|D].
    + rewrite (nat_eqb_neq _ _ N2). reflexivity.
    + destruct (Q f I) as [Q0|(Q1 & Q2 & Q3)]; [contradiction|].
      assert (G : isConvertibleTo H (f_ret f) want = Ok MNone); [|rewrite G; reflexivity].
      rewrite Forall_forall in Fv. apply isConvertibleTo_iff_Grade; auto; [apply (Fv f I)|]. apply G_illegal; auto.
      * intro Qe. apply Q2. rewrite Qe. constructor.
      * unfold one_is_value. intuition.
      * intros L. destruct L as (_ & L). now apply Q2.
Qed.
Print Assumptions c73_refused.


Lemma typed_number B n E H m st T name os X vs w m1 st1 p :
  wf_heap H -> h_value H <> h_void H -> valid H X -> plumbed E H X X -> function H T name = Ok os ->
  (forall f, In f os -> f_ret f = Arg X Copy false) ->
  mtype_call B (S (S n)) E H m st T name vs = Ok (w, m1, st1) -> unborn m1 (st_next st1) -> (forall y, m1 y = DNone -> m y = DNone) ->
  owns_number X m1 w p ->
  exists r m2 st2, mtype_call_ret B (S (S n)) E H m st T name (Arg X Copy false) vs = Ok (r, m2, st2) /\
    unborn m2 (st_next st2) /\ gives_number m m2 r p /\ (forall y, m1 y <> DNone -> m2 y = m1 y).
Proof.
  intros W NV V PX Fo R Ec U Mn (Aw & _ & Zw & Mw). pose proof (pl_void _ _ _ _ PX) as Nd. pose proof (pl_value _ _ _ _ PX) as Nv.
  destruct (c73_typed B n E H m st T name os (Arg X Copy false) vs w m1 st1 W NV Fo) as (r & m2 & st2 & Er & U2 & D); auto.
  - right. cbn. split; [exact Nv|]. split; [exact V|]. split; [apply (pl_conv _ _ _ _ PX)|auto].
  - intros f I. unfold returns. rewrite (R f I). split; [exact Nv|]. split; [discriminate|]. right. split; reflexivity.
  - intros _ _. exists (DData p). right. exists p. split; [|reflexivity]. unfold read. destruct (v_addr w) as [o i]. cbn [fst snd] in *. subst i. now rewrite Mw.
  - exists r, m2, st2. split; [exact Er|]. split; [exact U2|]. unfold delivered in D. cbn [a_type a_ref] in D. rewrite (nat_eqb_neq _ _ Nd) in D.
    destruct D as (o & -> & No & It & F). split.
    + exists o. split; [reflexivity|]. split; [auto|]. destruct It as [(q & Q & _)|(q & Q & ->)]; [congruence|]. f_equal.
      unfold read in Q. destruct (v_addr w) as [o' i]. cbn [fst snd] in *. subst i. rewrite Mw in Q. injection Q as <-. reflexivity.
    + intros y Ny. apply F. congruence.
Qed.
Lemma bool_answer B n E H m st v name os X vs w m1 st1 Q :
  wf_heap H -> h_value H <> h_void H -> valid H X -> plumbed E H X X -> function H (v_type v) name = Ok os ->
  (forall f, In f os -> f_ret f = Arg X Copy false) ->
  mtype_call B (S (S n)) E H m st (v_type v) name (v :: vs) = Ok (w, m1, st1) -> unborn m1 (st_next st1) -> (forall y, m y <> DNone -> m1 y = m y) ->
  answers X m1 w Q ->
  exists b m2 st2, mcall_bool B (S (S n)) E H m st X v name vs = Ok (b, m2, st2) /\
    unborn m2 (st_next st2) /\ tells b Q /\ (forall y, m y <> DNone -> m2 y = m y).
Proof.
  intros W NV V PX Fo R Ec U Fr (p & Ow & An).
  destruct (typed_number B n E H m st (v_type v) name os X (v :: vs) w m1 st1 p) as (r & m2 & st2 & Er & U2 & (o & -> & No & Mo) & F); auto.
  { intros y Ny. destruct (m y) eqn:My; auto; rewrite Fr in Ny by congruence; congruence. }
  unfold mcall_bool, mvalue_call_ret. rewrite Er. cbn [bind]. unfold get, read. cbn [fst snd]. rewrite Mo. cbn [bind N.eqb].
  eexists _, _, _. split; [reflexivity|]. split; [exact U2|]. split.
  - destruct An as [(-> & Hq)|(-> & Hq)]; [left|right]; auto.
  - intros y Ny. rewrite F by (rewrite Fr; auto). auto.
Qed.

(* ----- numbers: sums and sizes as C++ numbers ----- *)
Theorem c73_plus : forall E H K ar T PT R nk id n m st v w p q,
  plain_type E H K (XNumber ar) T PT R nk id -> plumbed E H R R -> unborn m (st_next st) ->
  holds m v T p -> holds m w T q -> sum_fits ar p q ->
  exists r m' st' s, mvalue_call_ret (plain_body K (XNumber ar)) (S (S n)) E H m st v (lit "operator+") (Arg R Copy false) [w] = Ok (r, m', st') /\
    unborn m' (st_next st') /\ gives_number m m' r s /\ is_sum ar p q s /\ (forall y, m y <> DNone -> m' y = m y).
Proof.
  intros E H K ar T PT R nk id n m st v w p q PN PR U (Tv & Rv) (Tw & Rw) Fs.
  destruct (c72_call E H K _ T PT R nk id n m st (PPlus (v_addr v) (v_addr w)) (lit "operator+") [v; w] PN U) as (x & m1 & st1 & Ec & U1 & (s & Ow & Is) & _ & _ & Fr).
  - constructor; split; auto.
  - split; [exact Logic.I|]. split. { repeat constructor; congruence. } intros p' q' Q1 Q2. assert (p' = p) by congruence. assert (q' = q) by congruence. now subst.
  - destruct (pn_R _ _ _ _ _ _ _ _ _ PN) as (R1 & R2).
    destruct (typed_number (plain_body K (XNumber ar)) n E H m st T (lit "operator+") _ R [v; w] x m1 st1 s (pn_W _ _ _ _ _ _ _ _ _ PN) (pn_NV _ _ _ _ _ _ _ _ _ PN) (proj2 (pn_valid _ _ _ _ _ _ _ _ _ PN)) PR
      (fn_plus _ _ _ _ _ _ _ _ _ PN _ eq_refl)) as (r & m2 & st2 & Er & U2 & G & F); auto.
    + intros f [<-|[]]. reflexivity.
    + intros y Ny. destruct (m y) eqn:My; auto; rewrite Fr in Ny; cbn; auto; congruence.
    + unfold mvalue_call_ret. rewrite Tv. exists r, m2, st2, s. split; [exact Er|]. split; [exact U2|]. split; [exact G|]. split; [eapply Is; eauto|].
      intros y Ny. assert (m1 y = m y) by (apply Fr; cbn; auto). rewrite F; congruence.
Qed.
Print Assumptions c73_plus.

Theorem c73_vector_size : forall E H K T V Z id n m st v o l,
  vector_type E H K T V Z id -> unborn m (st_next st) -> contents m o l -> handle_to T o v ->
  exists r m' st', mvalue_call_ret (vec_body K) (S (S n)) E H m st v (lit "size") (Arg Z Copy false) [] = Ok (r, m', st') /\
    unborn m' (st_next st') /\ gives_number m m' r (N.of_nat (length l)) /\ (forall y, m y <> DNone -> m' y = m y).
Proof.
  intros E H K T V Z id n m st v o l VT U C Hv.
  destruct (vec_size E H K T V Z id VT n m st v o l U C Hv) as (w & m1 & st1 & Ec & U1 & _ & Ow & Fr). rewrite mcall_is in Ec.
  destruct (typed_number (vec_body K) n E H m st (v_type v) (lit "size") [Fn (lit "size") (Arg Z Copy false) [Arg T LValue true] (k_base K + 5)] Z [v] w m1 st1 (N.of_nat (length l)))
    as (r & m2 & st2 & Er & U2 & G & F); auto.
  - apply (vt_wf _ _ _ _ _ _ _ VT).
  - apply (vt_apart _ _ _ _ _ _ _ VT).
  - apply (vt_valid _ _ _ _ _ _ _ VT).
  - apply (vt_index _ _ _ _ _ _ _ VT).
  - rewrite (proj1 Hv). apply (vec_function E H K T V Z id VT); [apply (vec_id E H K T V Z id VT); discriminate|discriminate|reflexivity|discriminate].
  - intros f [<-|[]]. reflexivity.
  - intros y Ny. destruct (m y) eqn:My; auto; rewrite Fr in Ny by congruence; congruence.
  - exists r, m2, st2. split; [exact Er|]. split; [exact U2|]. split; [exact G|]. intros y Ny. rewrite F; rewrite Fr; auto.
Qed.
Print Assumptions c73_vector_size.

(* ----- truth: pointers say whether they are set ----- *)
Lemma truth_not B n E H m st tb v Q Q' : hasFunction H (v_type v) (lit "operator!") = Ok false ->
  (exists b m' st', value_truth B n E H m st tb v = Ok (b, m', st') /\ unborn m' (st_next st') /\ tells b Q /\ (forall y, m y <> DNone -> m' y = m y)) ->
  (Q' <-> ~ Q) ->
  exists b m' st', value_not B n E H m st tb v = Ok (b, m', st') /\ unborn m' (st_next st') /\ tells b Q' /\ (forall y, m y <> DNone -> m' y = m y).
Proof.
  intros Hn (b & m' & st' & E1 & U & T & F) I. unfold value_not. rewrite Hn. cbn [bind]. rewrite E1. cbn [bind].
  exists (negb b), m', st'. split; [reflexivity|]. split; [exact U|]. split; [|exact F]. unfold tells in *. destruct T as [(-> & T)|(-> & T)]; cbn; [right|left]; split; auto; tauto.
Qed.

Theorem c73_raw_truth : forall E H rb P PP B pid n m st v p,
  raw_type E H rb P PP B pid -> plumbed E H B B -> type_name (pid ++ lit "*") -> unborn m (st_next st) -> raw_handle PP m v p ->
  (exists b m' st', value_truth (raw_body rb) (S (S n)) E H m st B v = Ok (b, m', st') /\ unborn m' (st_next st') /\
     tells b (p <> None) /\ (forall y, m y <> DNone -> m' y = m y)) /\
  (exists b m' st', value_not (raw_body rb) (S (S n)) E H m st B v = Ok (b, m', st') /\ unborn m' (st_next st') /\
     tells b (p = None) /\ (forall y, m y <> DNone -> m' y = m y)).
Proof.
  intros E H rb P PP B pid n m st v p RT PB TN U R.
  assert (A : exists b m' st', value_truth (raw_body rb) (S (S n)) E H m st B v = Ok (b, m', st') /\ unborn m' (st_next st') /\
     tells b (p <> None) /\ (forall y, m y <> DNone -> m' y = m y)).
  { destruct (r_bool E H rb P PP B pid RT n m st v p U R) as (w & m1 & st1 & Ec & U1 & An & Fr).
    apply (bool_answer (raw_body rb) n E H m st v (lit "operator bool()") [Fn (lit "operator bool()") (Arg B Copy false) [Arg PP Copy false] (rb + 5)] B [] w m1 st1); auto.
    - apply (rt_wf _ _ _ _ _ _ _ RT).
    - apply (rt_apart _ _ _ _ _ _ _ RT).
    - apply (rt_valid _ _ _ _ _ _ _ RT).
    - rewrite (proj1 R). apply (r_function E H rb P PP B pid RT); [apply r_name_bool|discriminate|reflexivity|discriminate].
    - intros f [<-|[]]. reflexivity.
    - rewrite (proj1 R). exact Ec. }
  split; [exact A|]. eapply truth_not; [|exact A|]; [|destruct p; intuition congruence].
  rewrite (proj1 R). destruct (library_has H PP _ _ (lit "operator!") (rt_wf _ _ _ _ _ _ _ RT) TN (L_pointer _ _ _ _ _ _ _ (rt_carries _ _ _ _ _ _ _ RT))) as [(J & _)|(_ & Q & _)]; auto.
  - cbn -[lit]. tauto.
  - exfalso. destruct J as [J|[J|[]]]; discriminate J.
Qed.
Print Assumptions c73_raw_truth.

Section SmartAnswers.
Context (E : cpp) (H : heap) (shared : bool) (b rb : nat) (T P PP B : tptr) (pid : str) (ST : smart_type E H shared b rb T P PP B pid).
Context (n : nat) (m : mem) (st : state) (os : list nat) (M : managed shared m os) (U : unborn m (st_next st)).
Ltac look := apply (sm_function E H shared b rb T P PP B pid ST); [apply sm_name; discriminate|discriminate|try (destruct shared; reflexivity)|discriminate].

Lemma smart_bool_fn : function H T (lit "operator bool()") = Ok [Fn (lit "operator bool()") (Arg B Copy false) [Arg T LValue true] (b + 7)].
Proof. look. Qed.
Lemma smart_eq_fn : function H T (lit "operator==") = Ok [Fn (lit "operator==") (Arg B Copy false) [Arg T LValue true; Arg T LValue true] (b + 9)].
Proof. look. Qed.
Lemma smart_slot v o : fst (v_addr v) = o -> In o os -> exists s, smart_of shared m (v_addr v) = Ok s /\ fst s = held m o.
Proof.
  intros <- I. pose proof (kp_slots _ _ _ _ (proj1 (managed_kept shared m os) M) _ I) as S0. rewrite (surjective_pairing (v_addr v)). exists (share_of m (fst (v_addr v))).
  split; [now apply smart_of_slot|]. cbn [fst]. symmetry. now apply (held_share shared).
Qed.
Lemma smart_bool v o : handle_to T o v -> In o os -> exists w m1 st1,
  mtype_call (smart_body shared b) (S (S n)) E H m st T (lit "operator bool()") [v] = Ok (w, m1, st1) /\ unborn m1 (st_next st1) /\
  (forall y, m y <> DNone -> m1 y = m y) /\ answers B m1 w (held m o <> None).
Proof.
  intros (Tv & Av) I. destruct (smart_slot v o Av I) as (s & Es & Eh).
  erewrite (call1c E H shared b rb T P PP B pid ST) with (code := b + 7); [|exact smart_bool_fn|now left|exact (NBv E H shared b rb T P PP B pid ST)|exact Tv].
  rewrite body_bool, Es. cbn [bind].
  edestruct (finish_new E H (Fn (lit "operator bool()") (Arg B Copy false) [Arg T LValue true] (b + 7))) as (log & ->);
    [reflexivity|exact (NBd E H shared b rb T P PP B pid ST)|exact (NBv E H shared b rb T P PP B pid ST)|exact (stB E H shared b rb T P PP B pid ST)|].
  eexists _, _, _. split; [reflexivity|]. cbn [st_next]. split; [now apply unborn_mset|]. split.
  - intros y Ny. apply mset_other. apply (born m _ _ U) in Ny. lia.
  - eapply truth_answers; [|reflexivity|apply mset_same]. rewrite Eh. destruct (held m o); cbn; intuition discriminate.
Qed.
Lemma smart_eq v o x o' : handle_to T o v -> handle_to T o' x -> In o os -> In o' os -> exists w m1 st1,
  mtype_call (smart_body shared b) (S (S n)) E H m st T (lit "operator==") [v; x] = Ok (w, m1, st1) /\ unborn m1 (st_next st1) /\
  (forall y, m y <> DNone -> m1 y = m y) /\ answers B m1 w (held m o = held m o').
Proof.
  intros (Tv & Av) (Tx & Ax) I I'. destruct (smart_slot v o Av I) as (s & Es & Eh), (smart_slot x o' Ax I') as (s' & Es' & Eh').
  erewrite (call2c E H shared b rb T P PP B pid ST) with (code := b + 9); [|exact smart_eq_fn|now left|exact (NBv E H shared b rb T P PP B pid ST)|exact Tv|exact Tx].
  rewrite body_eq, Es. cbn [bind]. rewrite Es'. cbn [bind].
  edestruct (finish_new E H (Fn (lit "operator==") (Arg B Copy false) [Arg T LValue true; Arg T LValue true] (b + 9))) as (log & ->);
    [reflexivity|exact (NBd E H shared b rb T P PP B pid ST)|exact (NBv E H shared b rb T P PP B pid ST)|exact (stB E H shared b rb T P PP B pid ST)|].
  eexists _, _, _. split; [reflexivity|]. cbn [st_next]. split; [now apply unborn_mset|]. split.
  - intros y Ny. apply mset_other. apply (born m _ _ U) in Ny. lia.
  - eapply truth_answers; [|reflexivity|apply mset_same]. rewrite Eh, Eh'. apply same_addr_eq.
Qed.
End SmartAnswers.

Lemma smart_library E H shared b rb T P PP B pid : smart_type E H shared b rb T P PP B pid ->
  library H T (smart_name shared pid) [lit "operator bool()"; lit "operator*"; lit "operator=="].
Proof.
  intro ST. pose proof (sm_carries _ _ _ _ _ _ _ _ _ _ ST) as C. destruct shared; [eapply L_shared|eapply L_unique]; exact C.
Qed.
Lemma smart_type_name shared pid : type_name (smart_name shared pid).
Proof. unfold type_name. destruct shared; discriminate. Qed.

Theorem c73_smart_truth : forall E H shared b rb T P PP B pid n m st os v o,
  smart_type E H shared b rb T P PP B pid -> plumbed E H B B -> managed shared m os -> unborn m (st_next st) -> handle_to T o v -> In o os ->
  (exists t m' st', value_truth (smart_body shared b) (S (S n)) E H m st B v = Ok (t, m', st') /\ unborn m' (st_next st') /\
     tells t (held m o <> None) /\ (forall y, m y <> DNone -> m' y = m y)) /\
  (exists t m' st', value_not (smart_body shared b) (S (S n)) E H m st B v = Ok (t, m', st') /\ unborn m' (st_next st') /\
     tells t (held m o = None) /\ (forall y, m y <> DNone -> m' y = m y)).
Proof.
  intros E H shared b rb T P PP B pid n m st os v o ST PB M U Hv I.
  assert (A : exists t m' st', value_truth (smart_body shared b) (S (S n)) E H m st B v = Ok (t, m', st') /\ unborn m' (st_next st') /\
     tells t (held m o <> None) /\ (forall y, m y <> DNone -> m' y = m y)).
  { destruct (smart_bool E H shared b rb T P PP B pid ST n m st os M U v o Hv I) as (w & m1 & st1 & Ec & U1 & Fr & An).
    eapply (bool_answer (smart_body shared b) n E H m st v (lit "operator bool()") _ B [] w m1 st1); auto.
    - apply (sm_wf _ _ _ _ _ _ _ _ _ _ ST).
    - apply (sm_apart _ _ _ _ _ _ _ _ _ _ ST).
    - apply (sm_valid _ _ _ _ _ _ _ _ _ _ ST).
    - rewrite (proj1 Hv). eapply (smart_bool_fn E H shared b rb T P PP B pid ST); eassumption.
    - intros f [<-|[]]. reflexivity.
    - rewrite (proj1 Hv). exact Ec. }
  split; [exact A|]. eapply truth_not; [|exact A|]; [|destruct (held m o); intuition congruence].
  rewrite (proj1 Hv). destruct (library_has H T _ _ (lit "operator!") (sm_wf _ _ _ _ _ _ _ _ _ _ ST) (smart_type_name shared pid) (smart_library _ _ _ _ _ _ _ _ _ _ ST)) as [(J & _)|(_ & Q & _)]; auto.
  - cbn -[lit]. tauto.
  - exfalso. destruct J as [J|[J|[J|[]]]]; discriminate J.
Qed.
Print Assumptions c73_smart_truth.

(* two smart pointers are equal when they hold the same object, or none *)
Theorem c73_smart_equal : forall E H shared b rb T P PP B pid n m st os v o x o',
  smart_type E H shared b rb T P PP B pid -> plumbed E H B B -> managed shared m os -> unborn m (st_next st) ->
  handle_to T o v -> handle_to T o' x -> In o os -> In o' os ->
  exists t m' st', value_bool_op (smart_body shared b) (S (S n)) E H m st B VEq v x = Ok (t, m', st') /\ unborn m' (st_next st') /\
    tells t (held m o = held m o') /\ (forall y, m y <> DNone -> m' y = m y).
Proof.
  intros E H shared b rb T P PP B pid n m st os v o x o' ST PB M U Hv Hx I I'.
  destruct (smart_eq E H shared b rb T P PP B pid ST n m st os M U v o x o' Hv Hx I I') as (w & m1 & st1 & Ec & U1 & Fr & An).
  eapply (bool_answer (smart_body shared b) n E H m st v (lit "operator==") _ B [x] w m1 st1); auto.
  - apply (sm_wf _ _ _ _ _ _ _ _ _ _ ST).
  - apply (sm_apart _ _ _ _ _ _ _ _ _ _ ST).
  - apply (sm_valid _ _ _ _ _ _ _ _ _ _ ST).
  - rewrite (proj1 Hv). eapply (smart_eq_fn E H shared b rb T P PP B pid ST); eassumption.
  - intros f [<-|[]]. reflexivity.
  - rewrite (proj1 Hv). exact Ec.
Qed.
Print Assumptions c73_smart_equal.

(* ----- v + w on numbers and v[i] on vectors, as Values ----- *)
Theorem c73_value_operators : forall E H n m st,
  (forall K ar T PT R nk id v w p q, plain_type E H K (XNumber ar) T PT R nk id -> unborn m (st_next st) ->
     holds m v T p -> holds m w T q -> sum_fits ar p q ->
     exists x m' st' s, value_op (plain_body K (XNumber ar)) (S (S n)) E H m st (lit "operator+") v [w] = Ok (x, m', st') /\
       unborn m' (st_next st') /\ owns_number R m' x s /\ is_sum ar p q s /\ (forall y, m y <> DNone -> m' y = m y)) /\
  (forall K T V Z id v o l x i q, vector_type E H K T V Z id -> unborn m (st_next st) -> contents m o l ->
     mutable_handle T o v -> holds m x Z i -> nth_error l (N.to_nat i) = Some q ->
     exists w m' st', value_op (vec_body K) (S (S n)) E H m st (lit "operator[]") v [x] = Ok (w, m', st') /\
       unborn m' (st_next st') /\ contents m' o l /\ is_result H V Z m' o l w (Element (N.to_nat i) true) /\ read m' (v_addr w) = Some q).
Proof.
  intros E H n m st. split.
  - intros K ar T PT R nk id v w p q PN U (Tv & Rv) (Tw & Rw) Fs.
    destruct (c72_call E H K _ T PT R nk id n m st (PPlus (v_addr v) (v_addr w)) (lit "operator+") [v; w] PN U) as (x & m1 & st1 & Ec & U1 & (s & Ow & Is) & _ & _ & Fr).
    + constructor; split; auto.
    + split; [exact Logic.I|]. split. { repeat constructor; congruence. } intros p' q' Q1 Q2. assert (p' = p) by congruence. assert (q' = q) by congruence. now subst.
    + unfold value_op. rewrite Tv. exists x, m1, st1, s. split; [exact Ec|]. split; [exact U1|]. split; [exact Ow|]. split; [eapply Is; eauto|].
      intros y Ny. apply Fr; cbn; auto.
  - intros K T V Z id v o l x i q VT U C Hv Hx Hn.
    destruct (c65_vector_behaves E H K T V Z id n m st v o l (OIndex i) [x] l (Element (N.to_nat i) true) VT U C) as (w & m' & st' & Ec & U' & C' & R & _).
    + exact Hv.
    + repeat constructor; apply Hx.
    + discriminate.
    + constructor. apply nth_error_Some. congruence.
    + cbn [vecop_name] in Ec. rewrite mcall_is in Ec. exists w, m', st'. split; [exact Ec|]. split; [exact U'|]. split; [exact C'|]. split; [exact R|].
      destruct R as (_ & _ & -> & _). exact Hn.
Qed.
Print Assumptions c73_value_operators.

(* ----- operators of any reflected type: v < w is the type's operator<, and so on ----- *)
Lemma bool_says B n E H m st tb v name vs m1 p :
  wf_heap H -> h_value H <> h_void H -> valid H tb -> plumbed E H tb tb -> says B (S (S n)) E H m st tb name v vs m1 p ->
  exists b m2 st2, mcall_bool B (S (S n)) E H m st tb v name vs = Ok (b, m2, st2) /\
    unborn m2 (st_next st2) /\ tells b (p <> 0%N) /\ (forall y, m1 y <> DNone -> m2 y = m1 y).
Proof.
  intros W NV V PX [(os & Fo & R) (w & st1 & Ec & U & Ow) K].
  destruct (typed_number B n E H m st (v_type v) name os tb (v :: vs) w m1 st1 p) as (r & m2 & st2 & Er & U2 & (o & -> & No & Mo) & F); auto.
  unfold mcall_bool, mvalue_call_ret. rewrite Er. cbn [bind]. unfold get, read. cbn [fst snd]. rewrite Mo. cbn [bind N.eqb].
  eexists _, _, _. split; [reflexivity|]. split; [exact U2|]. split; [|exact F].
  destruct (N.eqb_spec p 0); [right|left]; split; auto.
Qed.
Theorem c73_comparisons : forall B n E H m st tb o name v x m1 p,
  wf_heap H -> h_value H <> h_void H -> valid H tb -> plumbed E H tb tb -> spelled o name ->
  says B (S (S n)) E H m st tb name v [x] m1 p ->
  exists b m2 st2, value_bool_op B (S (S n)) E H m st tb o v x = Ok (b, m2, st2) /\
    unborn m2 (st_next st2) /\ tells b (p <> 0%N) /\ (forall y, m1 y <> DNone -> m2 y = m1 y).
Proof.
  intros B n E H m st tb o name v x m1 p W NV V PX Sp Sy. unfold value_bool_op.
  assert (boolop_name o = name) as -> by (destruct Sp; reflexivity). now apply bool_says.
Qed.
Print Assumptions c73_comparisons.
(* !v is the type's operator! if it has one, and otherwise the opposite of its operator bool *)
Theorem c73_not : forall B n E H m st tb v m1 p,
  wf_heap H -> h_value H <> h_void H -> valid H tb -> plumbed E H tb tb ->
  (hasFunction H (v_type v) (lit "operator!") = Ok true -> says B (S (S n)) E H m st tb (lit "operator!") v [] m1 p ->
   exists b m2 st2, value_not B (S (S n)) E H m st tb v = Ok (b, m2, st2) /\
    unborn m2 (st_next st2) /\ tells b (p <> 0%N) /\ (forall y, m1 y <> DNone -> m2 y = m1 y)) /\
  (says B (S (S n)) E H m st tb (lit "operator bool()") v [] m1 p ->
   exists b m2 st2, value_truth B (S (S n)) E H m st tb v = Ok (b, m2, st2) /\
    unborn m2 (st_next st2) /\ tells b (p <> 0%N) /\ (forall y, m1 y <> DNone -> m2 y = m1 y) /\
    (hasFunction H (v_type v) (lit "operator!") = Ok false -> value_not B (S (S n)) E H m st tb v = Ok (negb b, m2, st2))).
Proof.
  intros B n E H m st tb v m1 p W NV V PX. split.
  - intros Hf Sy. unfold value_not. rewrite Hf. cbn [bind]. now apply bool_says.
  - intros Sy. destruct (bool_says B n E H m st tb v _ [] m1 p W NV V PX Sy) as (b & m2 & st2 & Eb & U & T & F).
    exists b, m2, st2. repeat split; auto. intros Hf. unfold value_not. rewrite Hf. cbn [bind]. unfold value_truth. rewrite Eb. reflexivity.
Qed.
Print Assumptions c73_not.
(* the hypotheses are met: smart pointers have operator== and operator bool, and no operator! *)
Lemma smart_says E H shared b rb T P PP B pid n m st os v o x o' :
  smart_type E H shared b rb T P PP B pid -> managed shared m os -> unborn m (st_next st) ->
  handle_to T o v -> handle_to T o' x -> In o os -> In o' os ->
  exists m1 p, spelled VEq (lit "operator==") /\ says (smart_body shared b) (S (S n)) E H m st B (lit "operator==") v [x] m1 p /\ (p = 1%N <-> held m o = held m o').
Proof.
  intros ST M U Hv Hx I I'.
  destruct (smart_eq E H shared b rb T P PP B pid ST n m st os M U v o x o' Hv Hx I I') as (w & m1 & st1 & Ec & U1 & Fr & (p & Ow & An)).
  exists m1, p. split; [constructor|]. split; [constructor|].
  - eexists. split; [rewrite (proj1 Hv); eapply (smart_eq_fn E H shared b rb T P PP B pid ST); eassumption|]. intros f [<-|[]]. reflexivity.
  - exists w, st1. split; [rewrite (proj1 Hv); exact Ec|]. split; [exact U1|exact Ow].
  - intros y Ny. destruct (m y) eqn:My; auto; rewrite Fr in Ny; congruence.
  - destruct An as [(-> & Hq)|(-> & Hq)]; split; auto; try discriminate; contradiction.
Qed.

(* ----- the operators of the library's types, all of them ----- *)
(* each type has exactly the operators listed; every other operator of Value on it is
   an error whatever the handle, the arguments and the result asked for *)
Theorem c73_operators : forall H T id ops name,
  wf_heap H -> type_name id -> library H T id ops -> In name value_operators ->
  (In name ops -> hasFunction H T name = Ok true) /\
  (~ In name ops -> forall B n E m st v want vs, v_type v = T ->
     value_op B n E H m st name v vs = Abort /\ mvalue_call_ret B n E H m st v name want vs = Abort).
Proof.
  intros H T id ops name W TN L I. destruct (library_has H T id ops name W TN L I) as [(J & Q)|(J & Q & F)]; split; try contradiction; auto.
  intros _ B n E m st v want vs Tv. unfold value_op, mvalue_call_ret, mtype_call_ret, mtype_call, mcall_for. rewrite Tv, F. split; reflexivity.
Qed.
Print Assumptions c73_operators.

(* False: a number, a string, a vector, a map or a plain class has no truth value and
   cannot be compared, not even a bool *)
Theorem c73_no_truth_refuted : forall H T id ops B n E m st tb v x o,
  wf_heap H -> type_name id -> library H T id ops -> ~ In (lit "operator bool()") ops -> v_type v = T ->
  value_truth B n E H m st tb v = Abort /\ value_not B n E H m st tb v = Abort /\ value_bool_op B n E H m st tb o v x = Abort.
Proof.
  intros H T id ops B n E m st tb v x o W TN L Nb Tv.
  assert (No : forall name vs, In name value_operators -> ~ In name ops -> mcall_bool B n E H m st tb v name vs = Abort).
  { intros name vs I J. unfold mcall_bool. destruct (c73_operators H T id ops name W TN L I) as (_ & Q). destruct (Q J B n E m st v (Arg tb Copy false) vs Tv) as (_ & ->). reflexivity. }
  assert (Hn : hasFunction H T (lit "operator!") = Ok false /\ ~ In (boolop_name o) ops).
  { split.
    - destruct (library_has H T id ops (lit "operator!") W TN L) as [(J & _)|(_ & Q & _)]; auto; [cbn -[lit]; tauto|].
      exfalso. destruct L; cbn -[lit] in J; repeat destruct J as [J|J]; try discriminate J; contradiction.
    - intro J. destruct L; cbn -[lit] in J, Nb; try (exfalso; apply Nb; tauto); repeat destruct J as [J|J]; try contradiction; destruct o; discriminate J. }
  destruct Hn as (Hn & Ho). split; [|split].
  - apply No; auto. cbn -[lit]. tauto.
  - unfold value_not, value_truth. rewrite Tv, Hn. cbn [bind]. rewrite No; auto. cbn -[lit]. tauto.
  - apply No; auto. destruct o; cbn -[lit]; tauto.
Qed.
Print Assumptions c73_no_truth_refuted.

(* ---- the worlds of C71 and C72 ---- *)
Lemma plain_plumbed E H K x T PT R nk id : plain_type E H K x T PT R nk id -> plumbed E H T T.
Proof.
  intro PN. destruct (pn_T _ _ _ _ _ _ _ _ _ PN) as (T1 & T2). destruct (pn_cpp _ _ _ _ _ _ _ _ _ PN) as (Cc & Cm & _).
  exact (pb_plumbed E H T id (p_base K) _ (pn_W _ _ _ _ _ _ _ _ _ PN) (pn_plumbed_body _ _ _ _ _ _ _ _ _ PN) (pn_assign _ _ _ _ _ _ _ _ _ PN) T1 T2 Cm Cc).
Qed.
Lemma ptr_bool : plain_type ptrCpp ptrHeap (numK 100) (XNumber (AInt 8 false)) 2 7 3 NBool (lit "bool").
Proof.
  constructor;
  [ apply ptrHeap_wf | apply carriesb_ok; vm_compute; reflexivity
  | cbn -[lit]; intros Q; repeat destruct Q as [Q|Q]; try discriminate; exact Q
  | split; [vm_compute; lia|]; repeat constructor; vm_compute; lia
  | split; unfold valid; vm_compute; lia | vm_compute; auto ].
Qed.
Definition answer (x : outcome (bool * mem * state)) : option bool := match x with Ok (b, _, _) => Some b | _ => None end.
Definition numberOf (x : outcome (option param * mem * state)) : option datum :=
  match x with Ok (Some (PCopy a), m', _) => Some (m' (fst a)) | _ => None end.
(* a raw pointer to an int, a null one, a std::unique_ptr; a bool, which has no truth *)
Definition opsMem : mem := mset (mset (mset ptrMem 30 (DPtr (Some (20, 0%N)))) 31 (DPtr None)) 32 (DData 1).
Example c73_ex :
  plumbed ptrCpp ptrHeap 2 2 /\ raw_type ptrCpp ptrHeap 140 3 4 2 (lit "int") /\ type_name (lit "int" ++ lit "*") /\
  smart_type ptrCpp ptrHeap false 180 140 6 3 4 2 (lit "int") /\ managed false opsMem [30; 31] /\
  answer (value_truth (raw_body 140) 2 ptrCpp ptrHeap opsMem (St 40 []) 2 rawH) = Some true /\
  answer (value_not (raw_body 140) 2 ptrCpp ptrHeap opsMem (St 40 []) 2 (hdl 4 RValue false (31, 0%N))) = Some true /\
  answer (value_truth (smart_body false 180) 2 ptrCpp ptrHeap opsMem (St 40 []) 2 (hdl 6 LValue true (30, 0%N))) = Some true /\
  answer (value_not (smart_body false 180) 2 ptrCpp ptrHeap opsMem (St 40 []) 2 (hdl 6 LValue true (30, 0%N))) = Some false /\
  answer (value_bool_op (smart_body false 180) 2 ptrCpp ptrHeap opsMem (St 40 []) 2 VEq (hdl 6 LValue true (30, 0%N)) (hdl 6 LValue false (31, 0%N))) = Some false /\
  library ptrHeap 2 (lit "bool") [lit "operator+"] /\
  value_truth (plain_body (numK 100) (XNumber (AInt 8 false))) 2 ptrCpp ptrHeap opsMem (St 40 []) 2 (hdl 2 LValue false (32, 0%N)) = Abort.
Proof.
  split; [exact (plain_plumbed _ _ _ _ _ _ _ _ _ ptr_bool)|]. split; [exact ptrHeap_raw|]. split; [discriminate|]. split; [exact (ptrHeap_smart false)|].
  split. { split.
    - repeat constructor; cbn; intuition discriminate.
    - intros o [<-|[<-|[]]]; eexists; reflexivity.
    - intros a (o & [<-|[<-|[]]] & Q); cbn in Q; [injection Q as <-; split; [reflexivity|now exists 7%N]|discriminate].
    - intros o o' a [<-|[<-|[]]] [<-|[<-|[]]] Q Q'; try reflexivity; discriminate. }
  do 5 (split; [vm_compute; reflexivity|]). split; [exact (L_number _ _ _ 7 3 NBool (Caps true true true true true) 100 (pn_carries _ _ _ _ _ _ _ _ _ ptr_bool))|]. vm_compute. reflexivity.
Qed.
(* sums and sizes as C++ numbers; the size of a vector is not an int *)
Example c73_ex2 :
  numberOf (mvalue_call_ret (plain_body (numK 120) (XNumber (AInt 16 true))) 2 plainCpp plainHeap plainMem (St 30 []) (hdl 3 LValue true (20, 0%N)) (lit "operator+")
    (Arg 2 Copy false) [hdl 3 LValue false (21, 0%N)]) = Some (DData 4) /\
  numberOf (mvalue_call_ret (vec_body (Cont 140 0 7)) 2 contCpp contHeap contMem (St 20 []) vecH (lit "size") (Arg 2 Copy false) []) = Some (DData 2) /\
  mvalue_call_ret (vec_body (Cont 140 0 7)) 2 contCpp contHeap contMem (St 20 []) vecH (lit "size") (Arg 3 Copy false) [] = Abort /\
  plumbed plainCpp plainHeap 2 2 /\ askable plainCpp plainHeap (Arg 2 Copy false).
Proof.
  do 3 (split; [vm_compute; reflexivity|]). pose proof (plain_plumbed _ _ _ _ _ _ _ _ _ plain_int) as P. split; [exact P|].
  right. cbn. split; [discriminate|]. split; [unfold valid; vm_compute; lia|]. split; [exact (pl_conv _ _ _ _ P)|auto].
Qed.
