(* ProofCont2.v - the members of a reflected std::vector, one call at a time (used by PropCont, C65). *)
From Coq Require String.
Import String.StringSyntax.
From Verif Require Import Base ModelCore SpecCore ProofCore ProofMatch ModelValue SpecValue ProofValue ModelPlumb SpecPlumb ProofPlumb ProofPlumb2 ProofPlumb3 ModelCont SpecCont ProofCont.

Lemma rebuf_old m old next a l0 l : unborn m next -> m (fst a) = DVec old -> m old = DBuf l0 -> rebuf m old next a l old = DNone.
Proof.
  intros U E1 E2. assert (Lo : old < next) by (apply (born m _ _ U); congruence). unfold rebuf.
  rewrite mset_other by (intros Q; rewrite Q in E2; congruence). rewrite mset_other by lia. apply mset_same.
Qed.

Section Vector.
Context (E : cpp) (H : heap) (K : cont) (T V Z : tptr) (id : str).
Context (VT : vector_type E H K T V Z id).
Notation k := (Caps true true true true true).
Notation b := (k_base K).

Let W : wf_heap H := vt_wf _ _ _ _ _ _ _ VT.
Let NV : h_value H <> h_void H := proj1 (vt_apart _ _ _ _ _ _ _ VT).
Let NTd : T <> h_void H := proj1 (proj2 (vt_apart _ _ _ _ _ _ _ VT)).
Let NTv : T <> h_value H := proj1 (proj2 (proj2 (vt_apart _ _ _ _ _ _ _ VT))).
Let NVd : V <> h_void H := proj1 (proj2 (proj2 (proj2 (vt_apart _ _ _ _ _ _ _ VT)))).
Let NVv : V <> h_value H := proj2 (proj2 (proj2 (proj2 (vt_apart _ _ _ _ _ _ _ VT)))).
Let VV : valid H V := proj1 (vt_valid _ _ _ _ _ _ _ VT).
Let VZ : valid H Z := proj1 (proj2 (vt_valid _ _ _ _ _ _ _ VT)).
Let PZ : plumbed E H Z Z := vt_index _ _ _ _ _ _ _ VT.
Let NZd : Z <> h_void H := pl_void _ _ _ _ PZ.
Let NZv : Z <> h_value H := pl_value _ _ _ _ PZ.

Lemma vec_valid : valid H T.
Proof. destruct (vt_carries _ _ _ _ _ _ _ VT) as (t & Et & _). eapply tget_valid; eauto. Qed.
Lemma vec_id n : firstn 2 n <> firstn 2 (lit "std") -> n <> id.
Proof. intros Hn ->. destruct (vt_id _ _ _ _ _ _ _ VT) as (vid & ->). now apply Hn. Qed.
Lemma vec_noconv : ~ has_user_conversion H T T.
Proof.
  destruct (vt_id _ _ _ _ _ _ _ VT) as (vid & Eid). pose proof (vt_carries _ _ _ _ _ _ _ VT) as C. intro U.
  destruct C as (t & Et & Eid2 & C). destruct (carries_conversion H T id _ T (vt_carries _ _ _ _ _ _ _ VT)) as (tu & ret & args & code & Etu & I); auto.
  { congruence. }
  assert (tu = t) as -> by congruence. rewrite Eid2 in I.
  destruct (vector_extension H T V Z vid b [] vec_valid VV VZ (proj2 (proj2 (vt_valid _ _ _ _ _ _ _ VT)))) as (X & _).
  unfold stdVector in I. apply in_app_or in I as [I|I].
  - apply plumbing_names in I as [Q|Q]; [now apply converterName_neq_id in Q|now apply converterName_neq_assign in Q].
  - rewrite <- Eid in X. exact (ex_conv _ _ _ _ _ X _ _ _ I).
Qed.

(* the functions under a name other than those of the plumbing *)
Lemma vec_function n l : n <> id -> n <> lit "operator=" -> fns_of n (vector_ext T V Z (h_void H) b) = l -> l <> [] ->
  function H T n = Ok l.
Proof.
  intros N1 N2 El Nl. pose proof (carries_function H T id _ n (vt_carries _ _ _ _ _ _ _ VT) W) as (F & _).
  assert (Q : fns_of n (stdVector id T V Z (h_void H) k b) = l).
  { unfold stdVector. rewrite fns_of_app, (fns_of_none n (plumbing id T k b)); [exact El|].
    intros ret args code I. apply plumbing_names in I as [?|?]; congruence. }
  rewrite Q in F. now apply F.
Qed.

Lemma gT r c r' c' : isConvertibleTo H (Arg T r c) (Arg T r' c') = Ok (same_grade (Arg T r c) (Arg T r' c')).
Proof. apply same_type_grade; auto using vec_valid, vec_noconv. Qed.
Lemma gV r c r' c' : isConvertibleTo H (Arg V r c) (Arg V r' c') = Ok (same_grade (Arg V r c) (Arg V r' c')).
Proof. apply same_type_grade; auto. apply (vt_elem _ _ _ _ _ _ _ VT). Qed.
Lemma gZ r c r' c' : isConvertibleTo H (Arg Z r c) (Arg Z r' c') = Ok (same_grade (Arg Z r c) (Arg Z r' c')).
Proof. apply same_type_grade; auto. apply (pl_conv _ _ _ _ PZ). Qed.

Lemma arg_of v X : v_type v = X -> v_arg v = Arg X (a_ref (v_arg v)) (a_const (v_arg v)).
Proof. unfold v_type. intros <-. now destruct (v_arg v). Qed.

(* ----- what each member does ----- *)
Lemma cref_grade X r c : same_grade (Arg X r c) (Arg X LValue true) <> MNone.
Proof. destruct r, c; discriminate. Qed.
Lemma copy_grade X r c : same_grade (Arg X r c) (Arg X Copy false) <> MNone.
Proof. destruct r, c; discriminate. Qed.
Lemma mut_grade X r c : same_grade (Arg X r c) (Arg X LValue false) = if ref_eqb r LValue && negb c then MExact else MNone.
Proof. destruct r, c; reflexivity. Qed.

Section Call.
Context (n : nat) (m : mem) (st : state) (v : value) (o : nat) (l : list N).
Context (U : unborn m (st_next st)) (C : contents m o l).

Definition frame (o : nat) (x : nat -> Prop) (m m' : mem) : Prop := forall y, y <> o -> ~ x y -> m y <> DNone -> m' y = m y.

Lemma vec_size : handle_to T o v -> exists w m' st',
  mcall (vec_body K) (S (S n)) E H m st v (lit "size") [] = Ok (w, m', st') /\
  unborn m' (st_next st') /\ contents m' o l /\ is_result H V Z m' o l w (Number (N.of_nat (length l))) /\ (forall y, m y <> DNone -> m' y = m y).
Proof.
  intros (Tv & Av). pose proof (arg_of v T Tv) as Ea. set (f := Fn (lit "size") (Arg Z Copy false) [Arg T LValue true] (b + 5)).
  assert (Ts : test_sig H f (ret_value H) (map v_arg [v]) = Ok (same_grade (v_arg v) (Arg T LValue true))).
  { cbn [map]. unfold f. rewrite test_one by auto. rewrite Ea at 1. rewrite gT. now rewrite <- Ea. }
  assert (Ng : same_grade (v_arg v) (Arg T LValue true) <> MNone) by (rewrite Ea; apply cref_grade).
  erewrite mcall_chosen with (os := [f]) (f := f) (m1 := m); [| | |exact Ts|exact Ng| |].
  2: { rewrite Tv. apply vec_function; [apply vec_id; discriminate|discriminate|reflexivity|discriminate]. }
  2: { rewrite (resolve_one _ _ _ _ _ Ts). destruct (same_grade _ _); [congruence|reflexivity..]. }
  2: { cbn [f_args f pass_all]. rewrite pass_cref by (auto using vec_valid). cbn [bind]. reflexivity. }
  2: { apply ctors_none. }
  cbn [f_code f]. unfold vec_body. rewrite Nat.add_comm, Nat.add_sub. destruct (vec_of_ok m (v_addr v) l) as (buf & Ev & E1 & E2); [now rewrite Av|].
  rewrite Ev. cbn [bind]. unfold wrap_ret. cbn [f_ret f a_type a_ref a_const]. rewrite (nat_eqb_neq _ _ NZd), (nat_eqb_neq _ _ NZv).
  cbn [ref_eqb]. unfold make_value. cbn [a_ref ref_eqb negb]. unfold storable. cbn [cpp_copyable cpp_movable with_ref a_type].
  rewrite (pl_copyable _ _ _ _ PZ), orb_true_r. cbn [bind]. eexists _, _, _. split; [reflexivity|]. cbn [st_next].
  split; [now apply unborn_mset|]. split; [now apply contents_mset|]. split.
  - split; [reflexivity|]. split; [reflexivity|]. split; [reflexivity|]. cbn. now rewrite mset_same.
  - intros y Ny. apply mset_other. apply (born m _ _ U) in Ny. lia.
Qed.

Lemma vec_clear : mutable_handle T o v -> exists w m' st',
  mcall (vec_body K) (S (S n)) E H m st v (lit "clear") [] = Ok (w, m', st') /\
  unborn m' (st_next st') /\ contents m' o [] /\ v_type w = h_void H /\ ((forall y, m' o = DVec y -> m y = DNone) /\ forall y, m o = DVec y -> m' y = DNone) /\ (forall y, y <> o -> m o <> DVec y -> m y <> DNone -> m' y = m y).
Proof.
  intros (Ea & Av). set (f := Fn (lit "clear") (Arg (h_void H) Copy false) [Arg T LValue false] (b + 6)).
  assert (Ts : test_sig H f (ret_value H) (map v_arg [v]) = Ok MExact).
  { cbn [map]. unfold f. rewrite test_one by (auto using not_eq_sym). rewrite Ea, gT. reflexivity. }
  erewrite mcall_chosen with (os := [f]) (f := f) (m1 := m); [| | |exact Ts|discriminate| |].
  2: { unfold v_type. rewrite Ea. cbn [a_type]. apply vec_function; [apply vec_id; discriminate|discriminate|reflexivity|discriminate]. }
  2: { now rewrite (resolve_one _ _ _ _ _ Ts). }
  2: { cbn [f_args f pass_all]. rewrite pass_mut by (auto using vec_valid). cbn [bind]. reflexivity. }
  2: { apply ctors_none. }
  cbn [f_code f]. unfold vec_body. rewrite Nat.add_comm, Nat.add_sub. subst o. destruct (vec_of_ok m (v_addr v) l C) as (buf & Ev & E1 & E2).
  rewrite Ev. cbn [bind]. unfold wrap_ret. cbn [f_ret f a_type]. rewrite Nat.eqb_refl. cbn [bind].
  eexists _, _, _. split; [reflexivity|]. cbn [st_next]. destruct (rebuf_spec m buf (st_next st) (v_addr v) l [] U E1 E2) as (R1 & R2 & R3).
  split; [exact R2|]. split; [exact R1|]. split; [reflexivity|]. split; [|exact R3]. split.
  - intros y. unfold rebuf. rewrite mset_same. intro Q. injection Q as <-. apply U. lia.
  - intros y Q. assert (y = buf) as -> by congruence. exact (rebuf_old _ _ _ _ _ _ U E1 E2).
Qed.

Lemma index_marshal x i T' c : valid H T' -> T' <> h_value H -> v_type v = T' ->
  (c = false -> v_arg v = Arg T' LValue false) -> holds m x Z i ->
  exists st1, pass_all (S (S n)) E H st [v; x] [Arg T' LValue c; Arg Z Copy false] = Ok ([PRef (v_addr v); PCopy (st_next st, 0%N)], st1) /\
    st_next st1 = S (st_next st) /\
    run_ctors m (st_next st) (skipn (length (st_log st)) (st_log st1)) = Ok (mset m (st_next st) (DData i)).
Proof.
  intros V' N' Tv Cv (Tx & Rx). destruct (pass_index n E H st x Z W NV VZ PZ Tx) as (code & q & Ep & Q).
  eexists. cbn [pass_all]. assert (E1 : pass (S (S n)) E H st v (Arg T' LValue c) = Ok (PRef (v_addr v), st)).
  { destruct c; [now apply pass_cref|apply pass_mut; auto]. }
  rewrite E1. cbn [bind]. rewrite Ep. cbn [bind]. split; [reflexivity|]. split; [reflexivity|]. cbn [st_log]. now apply ctors_index with (x := x).
Qed.

Lemma vec_resize x i : mutable_handle T o v -> holds m x Z i -> exists w m' st',
  mcall (vec_body K) (S (S n)) E H m st v (lit "resize") [x] = Ok (w, m', st') /\
  unborn m' (st_next st') /\ contents m' o (resized (k_dflt K) l (N.to_nat i)) /\ v_type w = h_void H /\ ((forall y, m' o = DVec y -> m y = DNone) /\ forall y, m o = DVec y -> m' y = DNone) /\
  (forall y, y <> o -> m o <> DVec y -> m y <> DNone -> m' y = m y).
Proof.
  intros (Ea & Av) Hx. pose proof Hx as (Tx & Rx).
  set (f := Fn (lit "resize") (Arg (h_void H) Copy false) [Arg T LValue false; Arg Z Copy false] (b + 7)).
  assert (Ts : test_sig H f (ret_value H) (map v_arg [v; x]) = Ok (combine MExact (same_grade (v_arg x) (Arg Z Copy false)))).
  { cbn [map]. unfold f. apply test_two; auto using not_eq_sym; [rewrite Ea, gT; reflexivity|].
    rewrite (arg_of x Z Tx). apply gZ. }
  assert (Ng : combine MExact (same_grade (v_arg x) (Arg Z Copy false)) <> MNone).
  { rewrite (arg_of x Z Tx). pose proof (copy_grade Z (a_ref (v_arg x)) (a_const (v_arg x))). now destruct (same_grade _ _). }
  destruct (index_marshal x i T false vec_valid NTv) as (st1 & Ep & En & Em); auto. { unfold v_type. now rewrite Ea. }
  erewrite mcall_chosen with (os := [f]) (f := f); [| | |exact Ts|exact Ng|exact Ep|exact Em].
  2: { unfold v_type. rewrite Ea. cbn [a_type]. apply vec_function; [apply vec_id; discriminate|discriminate|reflexivity|discriminate]. }
  2: { rewrite (resolve_one _ _ _ _ _ Ts). destruct (combine _ _); [congruence|reflexivity..]. }
  cbn [f_code f]. unfold vec_body. rewrite Nat.add_comm, Nat.add_sub. subst o.
  set (m1 := mset m (st_next st) (DData i)).
  assert (C1 : contents m1 (fst (v_addr v)) l) by (now apply contents_mset).
  assert (U1 : unborn m1 (st_next st1)) by (rewrite En; now apply unborn_mset).
  destruct (vec_of_ok m1 (v_addr v) l C1) as (buf & Ev & E1 & E2).
  rewrite Ev. cbn [bind]. unfold get. unfold read at 1. cbn [fst snd]. unfold m1 at 1. rewrite mset_same. cbn [N.eqb bind].
  unfold wrap_ret. cbn [f_ret f a_type]. rewrite Nat.eqb_refl. cbn [bind].
  eexists _, _, _. split; [reflexivity|]. cbn [st_next].
  destruct (rebuf_spec m1 buf (st_next st1) (v_addr v) l (resized (k_dflt K) l (N.to_nat i)) U1 E1 E2) as (R1 & R2 & R3).
  split; [exact R2|]. split; [exact R1|]. split; [reflexivity|]. split.
  { split; [intros y; unfold rebuf; rewrite mset_same; intro Q; injection Q as <-; apply U; lia|].
    intros y Q. assert (y = buf) as ->; [|exact (rebuf_old _ _ _ _ _ _ U1 E1 E2)].
    unfold m1 in E1. rewrite mset_other in E1; [congruence|]. assert (fst (v_addr v) < st_next st); [|lia]. apply (born m _ _ U). congruence. }
  intros y N1 N0 N2.
  assert (Q : m1 y = m y) by (apply mset_other; apply (born m _ _ U) in N2; lia). rewrite <- Q. apply R3; try congruence.
  intro Q2. apply N0. rewrite <- Q2. symmetry. apply mset_other. destruct C as (bf & Q3 & _).
  assert (fst (v_addr v) < st_next st); [|lia]. apply (born m _ _ U). congruence.
Qed.

Lemma vec_index_gen name c x i code : 
  (name = lit "operator[]" /\ c = false /\ code = 10) \/ (name = lit "at" /\ c = true /\ code = 11) ->
  handle_to T o v -> (c = false -> mutable_handle T o v) -> holds m x Z i ->
  exists buf m1, m1 o = DVec buf /\ m1 buf = DBuf l /\ unborn m1 (S (st_next st)) /\ (forall y, m y <> DNone -> m1 y = m y) /\
  (N.to_nat i < length l -> exists st', st_next st' = S (st_next st) /\
     mcall (vec_body K) (S (S n)) E H m st v name [x] = Ok (Val (Arg V LValue c) (buf, i) false, m1, st')) /\
  (N.to_nat i >= length l -> mcall (vec_body K) (S (S n)) E H m st v name [x] = if c then Abort else UB).
Proof.
  intros D (Tv & Av) Mv Hx. pose proof Hx as (Tx & Rx).
  set (f := Fn name (Arg V LValue c) [Arg T LValue c; Arg Z Copy false] (b + code)).
  assert (Ev : v_arg v = Arg T (a_ref (v_arg v)) (a_const (v_arg v))) by (now apply arg_of).
  assert (Ts : test_sig H f (ret_value H) (map v_arg [v; x]) =
     Ok (combine (same_grade (v_arg v) (Arg T LValue c)) (same_grade (v_arg x) (Arg Z Copy false)))).
  { cbn [map]. unfold f. apply test_two; auto; [rewrite Ev; apply gT|]. rewrite (arg_of x Z Tx). apply gZ. }
  assert (Ng : combine (same_grade (v_arg v) (Arg T LValue c)) (same_grade (v_arg x) (Arg Z Copy false)) <> MNone).
  { assert (same_grade (v_arg v) (Arg T LValue c) <> MNone).
    { destruct c; [rewrite Ev; apply cref_grade|]. destruct (Mv eq_refl) as (Q & _). rewrite Q. discriminate. }
    rewrite (arg_of x Z Tx). pose proof (copy_grade Z (a_ref (v_arg x)) (a_const (v_arg x))).
    now destruct (same_grade (v_arg v) _), (same_grade (Arg Z _ _) _). }
  destruct (index_marshal x i T c vec_valid NTv Tv) as (st1 & Ep & En & Em); auto. { intros Q. apply (Mv Q). }
  set (m1 := mset m (st_next st) (DData i)) in *.
  assert (C1 : contents m1 (fst (v_addr v)) l) by (rewrite Av; now apply contents_mset).
  destruct (vec_of_ok m1 (v_addr v) l C1) as (buf & Eo & E1 & E2). rewrite Av in E1.
  assert (Q : mcall (vec_body K) (S (S n)) E H m st v name [x] =
    bind (vec_body K (b + code) [PRef (v_addr v); PCopy (st_next st, 0%N)] m1 (st_next st1)) (fun x => let '(r2, res) := x in let '(m2, next2) := r2 in
      bind (wrap_ret (with_ref E res) H f [PRef (v_addr v); PCopy (st_next st, 0%N)] (St next2 (st_log st1)))
        (fun y => let '(w, st2) := y in Ok (w, match res with RNew d => mset m2 next2 d | _ => m2 end, st2)))).
  { change (b + code) with (f_code f). apply mcall_chosen with (os := [f]) (f := f) (g := combine (same_grade (v_arg v) (Arg T LValue c)) (same_grade (v_arg x) (Arg Z Copy false))); auto.
    - rewrite Tv. unfold f. destruct D as [(-> & -> & ->)|(-> & -> & ->)];
      (apply vec_function; [apply vec_id; discriminate|discriminate|reflexivity|discriminate]).
    - rewrite (resolve_one _ _ _ _ _ Ts). destruct (combine _ _); [congruence|reflexivity..]. }
  assert (Eb : vec_body K (b + code) [PRef (v_addr v); PCopy (st_next st, 0%N)] m1 (st_next st1) =
    if N.ltb i (N.of_nat (length l)) then Ok (m1, st_next st1, RRef (buf, i)) else if c then Abort else UB).
  { unfold vec_body. rewrite Nat.add_comm, Nat.add_sub.
    assert (Eg : get m1 (st_next st, 0%N) = Ok i) by (unfold get, read, m1; cbn [fst snd]; rewrite mset_same; reflexivity).
    destruct D as [(-> & -> & ->)|(-> & -> & ->)]; rewrite Eo; cbn [bind]; rewrite Eg; cbn [bind]; auto.
    rewrite N.leb_antisym. destruct (N.ltb i (N.of_nat (length l))); reflexivity. }
  exists buf, m1. split; [exact E1|]. split; [exact E2|]. split; [now apply unborn_mset|].
  split. { intros y Ny. apply mset_other. apply (born m _ _ U) in Ny. lia. }
  rewrite Q, Eb. split; intro L.
  - assert (N.ltb i (N.of_nat (length l)) = true) as -> by (apply N.ltb_lt; lia). cbn [bind]. unfold wrap_ret. cbn [f_ret f a_type a_ref a_const].
    rewrite (nat_eqb_neq _ _ NVd), (nat_eqb_neq _ _ NVv). cbn [ref_eqb bind with_ref cpp_ref_result].
    eexists. split; [|reflexivity]. cbn. exact En.
  - assert (N.ltb i (N.of_nat (length l)) = false) as -> by (apply N.ltb_ge; lia). destruct c; reflexivity.
Qed.

Lemma vec_push x p : mutable_handle T o v -> holds m x V p -> (gives x -> isMovable H V = Ok true /\ cpp_movable E V = true) ->
  (gives x -> fst (v_addr x) <> o /\ m o <> DVec (fst (v_addr x))) ->
  exists w m' st',
  mcall (vec_body K) (S (S n)) E H m st v (lit "push_back") [x] = Ok (w, m', st') /\
  unborn m' (st_next st') /\ contents m' o (l ++ [p]) /\ v_type w = h_void H /\ ((forall y, m' o = DVec y -> m y = DNone) /\ forall y, m o = DVec y -> m' y = DNone) /\
  (gives x -> read m' (v_addr x) = Some (k_moved K)) /\
  (forall y, y <> o -> m o <> DVec y -> (gives x -> y <> fst (v_addr x)) -> m y <> DNone -> m' y = m y).
Proof.
  intros (Ea & Av) (Tx & Rx) Mx Sx. pose proof (arg_of x V Tx) as Ex.
  set (f1 := Fn (lit "push_back") (Arg (h_void H) Copy false) [Arg T LValue false; Arg V LValue true] (b + 8)).
  set (f2 := Fn (lit "push_back") (Arg (h_void H) Copy false) [Arg T LValue false; Arg V RValue false] (b + 9)).
  assert (T1 : test_sig H f1 (ret_value H) (map v_arg [v; x]) = Ok (combine MExact (same_grade (v_arg x) (Arg V LValue true)))).
  { cbn [map]. unfold f1. apply test_two; auto using not_eq_sym; [rewrite Ea, gT; reflexivity|]. rewrite Ex. apply gV. }
  assert (T2 : test_sig H f2 (ret_value H) (map v_arg [v; x]) = Ok (combine MExact (same_grade (v_arg x) (Arg V RValue false)))).
  { cbn [map]. unfold f2. apply test_two; auto using not_eq_sym; [rewrite Ea, gT; reflexivity|]. rewrite Ex. apply gV. }
  assert (Tv : v_type v = T) by (unfold v_type; now rewrite Ea).
  assert (Fo : function H (v_type v) (lit "push_back") = Ok [f1; f2]).
  { rewrite Tv. apply vec_function; [apply vec_id; discriminate|discriminate|reflexivity|discriminate]. }
  assert (E1 : pass (S (S n)) E H st v (Arg T LValue false) = Ok (PRef (v_addr v), st)) by (apply pass_mut; auto using vec_valid).
  subst o. assert (Bx : m (fst (v_addr x)) <> DNone) by (intro Q; unfold read in Rx; rewrite Q in Rx; discriminate).
  destruct (ref_eqb (a_ref (v_arg x)) RValue && negb (a_const (v_arg x))) eqn:G.
  - assert (gives x) as Gx by (unfold gives; destruct (a_ref (v_arg x)), (a_const (v_arg x)); try discriminate; auto).
    destruct (Mx Gx) as (M1 & M2). destruct (Sx Gx) as (NX & NB). destruct Gx as (G1 & G2).
    assert (X1 : same_grade (v_arg x) (Arg V LValue true) = MPartial) by (rewrite Ex, G1, G2; reflexivity).
    assert (X2 : same_grade (v_arg x) (Arg V RValue false) = MExact) by (rewrite Ex, G1, G2; reflexivity).
    rewrite X1 in T1. rewrite X2 in T2. cbn [combine grade_eqb orb] in T1, T2.
    erewrite mcall_chosen with (os := [f1; f2]) (f := f2) (m1 := m); [|exact Fo| |exact T2|discriminate| |].
    2: { unfold overloads_resolve. cbn [resolve_loop]. rewrite T1. cbn [bind combine grade_eqb orb andb]. rewrite T2. cbn [bind combine grade_eqb orb andb]. reflexivity. }
    2: { cbn [f_args f2 pass_all]. rewrite E1. cbn [bind]. rewrite pass_rref; auto; [cbn [bind]; reflexivity|rewrite Tx; auto|rewrite Tx; constructor]. }
    2: { apply ctors_none. }
    cbn [f_code f2]. unfold vec_body. rewrite Nat.add_comm, Nat.add_sub. unfold get. rewrite Rx. cbn [bind].
    set (m1 := write m (v_addr x) (k_moved K)).
    assert (P1 : (forall y, y <> fst (v_addr x) -> m1 y = m y) /\ read m1 (v_addr x) = Some (k_moved K) /\ m1 (fst (v_addr x)) <> DNone).
    { unfold m1, write. unfold read in Rx |- *. destruct (m (fst (v_addr x))) as [|p0|bb|l0|l0| | |] eqn:Em; try discriminate.
      - split; [intros; now apply mset_other|]. rewrite mset_same. destruct (N.eqb (snd (v_addr x)) 0); [|discriminate]. split; [reflexivity|discriminate].
      - split; [intros; now apply mset_other|]. rewrite mset_same. split; [|discriminate]. apply set_at_same. apply nth_error_Some. congruence. }
    destruct P1 as (P1 & P2 & P3).
    assert (U1 : unborn m1 (st_next st)).
    { intros y Ly. rewrite P1; auto. intros ->. apply (born m _ _ U) in Bx. lia. }
    assert (C1 : contents m1 (fst (v_addr v)) l).
    { destruct C as (buf & C1 & C2). exists buf. rewrite !P1; auto. congruence. }
    destruct (vec_of_ok m1 (v_addr v) l C1) as (buf & Ev & B1 & B2). rewrite Ev. cbn [bind].
    assert (B3 : m (fst (v_addr v)) = DVec buf) by (rewrite <- P1; auto).
    unfold wrap_ret. cbn [f_ret f2 a_type]. rewrite Nat.eqb_refl. cbn [bind]. eexists _, _, _. split; [reflexivity|]. cbn [st_next].
    destruct (rebuf_spec m1 buf (st_next st) (v_addr v) l (l ++ [p]) U1 B1 B2) as (R1 & R2 & R3).
    split; [exact R2|]. split; [exact R1|]. split; [reflexivity|]. split.
    { split; [intros y; unfold rebuf; rewrite mset_same; intro Q; injection Q as <-; apply U; lia|].
      intros y Q. assert (y = buf) as -> by congruence. exact (rebuf_old _ _ _ _ _ _ U1 B1 B2). }
    split.
    + intros _. unfold read in P2 |- *. rewrite R3; auto. rewrite B1. intro Q. injection Q as Q. apply NB. congruence.
    + intros y N1 N0 N2 N3. assert (Q : m1 y = m y) by (apply P1; apply N2; split; auto). rewrite <- Q. apply R3; auto; congruence.
  - assert (~ gives x) as Gx. { intros (G1 & G2). rewrite G1, G2 in G. discriminate. }
    assert (X2 : same_grade (v_arg x) (Arg V RValue false) = MNone).
    { rewrite Ex. destruct (a_ref (v_arg x)), (a_const (v_arg x)); try reflexivity; discriminate. }
    rewrite X2 in T2. cbn [combine grade_eqb orb] in T2.
    assert (Ng : combine MExact (same_grade (v_arg x) (Arg V LValue true)) <> MNone).
    { rewrite Ex. pose proof (cref_grade V (a_ref (v_arg x)) (a_const (v_arg x))). now destruct (same_grade _ _). }
    erewrite mcall_chosen with (os := [f1; f2]) (f := f1) (m1 := m); [|exact Fo| |exact T1|exact Ng| |].
    2: { unfold overloads_resolve. cbn [resolve_loop]. rewrite T1. cbn [bind].
         destruct (combine MExact (same_grade (v_arg x) (Arg V LValue true))) eqn:Eg; [congruence| |reflexivity].
         cbn [grade_eqb andb]. rewrite T2. cbn. reflexivity. }
    2: { cbn [f_args f1 pass_all]. rewrite E1. cbn [bind]. rewrite pass_cref by auto. cbn [bind]. reflexivity. }
    2: { apply ctors_none. }
    cbn [f_code f1]. unfold vec_body. rewrite Nat.add_comm, Nat.add_sub. destruct (vec_of_ok m (v_addr v) l C) as (buf & Ev & B1 & B2).
    rewrite Ev. cbn [bind]. unfold get. rewrite Rx. cbn [bind].
    unfold wrap_ret. cbn [f_ret f1 a_type]. rewrite Nat.eqb_refl. cbn [bind]. eexists _, _, _. split; [reflexivity|]. cbn [st_next].
    destruct (rebuf_spec m buf (st_next st) (v_addr v) l (l ++ [p]) U B1 B2) as (R1 & R2 & R3).
    split; [exact R2|]. split; [exact R1|]. split; [reflexivity|]. split.
    { split; [intros y; unfold rebuf; rewrite mset_same; intro Q; injection Q as <-; apply U; lia|].
      intros y Q. assert (y = buf) as -> by congruence. exact (rebuf_old _ _ _ _ _ _ U B1 B2). }
    split; [tauto|].
    intros y N1 N0 N2 N3. now apply R3.
Qed.
End Call.

Lemma forall2_none {A B} (R : A -> B -> Prop) l : Forall2 R l [] -> l = [].
Proof. intro F. now inversion F. Qed.
Lemma forall2_impl {A B} (R R' : A -> B -> Prop) l l' : (forall x y, R x y -> R' x y) -> Forall2 R l l' -> Forall2 R' l l'.
Proof. intros I F. induction F; auto. Qed.
Lemma forall2_one {A B} (R : A -> B -> Prop) l y : Forall2 R l [y] -> exists x, l = [x] /\ R x y.
Proof. intro F. inversion F as [|x a xs ys Ex Fr]; subst. inversion Fr; subst. eauto. Qed.

(* a handle that may not be written through cannot call the members that write *)
Lemma vec_const_aborts n m st v op args : v_type v = T -> ~ (a_ref (v_arg v) = LValue /\ a_const (v_arg v) = false) ->
  vecop_mutates op = true -> Forall2 (fun x a => v_type x = fst a) args (vecop_args V Z op) ->
  mcall (vec_body K) n E H m st v (vecop_name op) args = Abort.
Proof.
  intros Tv Nm Mu Fa. pose proof (arg_of v T Tv) as Ev.
  assert (Gv : same_grade (v_arg v) (Arg T LValue false) = MNone).
  { rewrite Ev, mut_grade. destruct (a_ref (v_arg v)), (a_const (v_arg v)); try reflexivity. elim Nm. auto. }
  assert (GT : isConvertibleTo H (v_arg v) (Arg T LValue false) = Ok MNone) by (rewrite Ev, gT, <- Ev, Gv; reflexivity).
  destruct op as [| |j|p|i|i]; try discriminate; cbn [vecop_args] in Fa; cbn [vecop_name].
  - apply forall2_none in Fa as ->. set (f := Fn (lit "clear") (Arg (h_void H) Copy false) [Arg T LValue false] (b + 6)).
    assert (Ts : test_sig H f (ret_value H) (map v_arg [v]) = Ok MNone) by (unfold f; cbn [map]; rewrite test_one by (auto using not_eq_sym); exact GT).
    eapply mcall_none with (os := [f]); [|now rewrite (resolve_one _ _ _ _ _ Ts)].
    rewrite Tv. apply vec_function; [apply vec_id; discriminate|discriminate|reflexivity|discriminate].
  - apply forall2_one in Fa as (x & -> & Ex). cbn [fst] in Ex.
    set (f := Fn (lit "resize") (Arg (h_void H) Copy false) [Arg T LValue false; Arg Z Copy false] (b + 7)).
    assert (Ts : test_sig H f (ret_value H) (map v_arg [v; x]) = Ok (combine MNone (same_grade (v_arg x) (Arg Z Copy false)))).
    { cbn [map]. unfold f. apply test_two; auto using not_eq_sym. rewrite (arg_of x Z Ex). apply gZ. }
    cbn [combine grade_eqb orb] in Ts. eapply mcall_none with (os := [f]); [|now rewrite (resolve_one _ _ _ _ _ Ts)].
    rewrite Tv. apply vec_function; [apply vec_id; discriminate|discriminate|reflexivity|discriminate].
  - apply forall2_one in Fa as (x & -> & Ex). cbn [fst] in Ex.
    set (f1 := Fn (lit "push_back") (Arg (h_void H) Copy false) [Arg T LValue false; Arg V LValue true] (b + 8)).
    set (f2 := Fn (lit "push_back") (Arg (h_void H) Copy false) [Arg T LValue false; Arg V RValue false] (b + 9)).
    assert (T1 : test_sig H f1 (ret_value H) (map v_arg [v; x]) = Ok (combine MNone (same_grade (v_arg x) (Arg V LValue true)))).
    { cbn [map]. unfold f1. apply test_two; auto using not_eq_sym. rewrite (arg_of x V Ex). apply gV. }
    assert (T2 : test_sig H f2 (ret_value H) (map v_arg [v; x]) = Ok (combine MNone (same_grade (v_arg x) (Arg V RValue false)))).
    { cbn [map]. unfold f2. apply test_two; auto using not_eq_sym. rewrite (arg_of x V Ex). apply gV. }
    cbn [combine grade_eqb orb] in T1, T2. eapply mcall_none with (os := [f1; f2]).
    + rewrite Tv. apply vec_function; [apply vec_id; discriminate|discriminate|reflexivity|discriminate].
    + unfold overloads_resolve. cbn [resolve_loop]. rewrite T1. cbn [bind grade_eqb]. rewrite T2. reflexivity.
  - apply forall2_one in Fa as (x & -> & Ex). cbn [fst] in Ex.
    set (f := Fn (lit "operator[]") (Arg V LValue false) [Arg T LValue false; Arg Z Copy false] (b + 10)).
    assert (Ts : test_sig H f (ret_value H) (map v_arg [v; x]) = Ok (combine MNone (same_grade (v_arg x) (Arg Z Copy false)))).
    { cbn [map]. unfold f. apply test_two; auto. rewrite (arg_of x Z Ex). apply gZ. }
    cbn [combine grade_eqb orb] in Ts. eapply mcall_none with (os := [f]); [|now rewrite (resolve_one _ _ _ _ _ Ts)].
    rewrite Tv. apply vec_function; [apply vec_id; discriminate|discriminate|reflexivity|discriminate].
Qed.

(* ----- the special members ----- *)
Lemma vec_body_plumbed : plumbed_body H T id k b (stdVector id T V Z (h_void H) k b) [].
Proof.
  destruct (vt_id _ _ _ _ _ _ _ VT) as (vid & Eid). pose proof (vt_carries _ _ _ _ _ _ _ VT) as C.
  destruct (vector_extension H T V Z vid b (plumbing id T all_caps b ++ vector_ext T V Z (h_void H) b) vec_valid VV VZ
    (proj2 (proj2 (vt_valid _ _ _ _ _ _ _ VT)))) as (X & Y).
  rewrite <- Eid in X, Y. exact (extension_plumbed H H T id k b _ (vector_ext T V Z (h_void H) b) X C Y).
Qed.
Lemma vec_id_assign : id <> lit "operator=".
Proof. destruct (vt_id _ _ _ _ _ _ _ VT) as (vid & ->). discriminate. Qed.
Lemma vec_movable : isMovable H T = Ok true.
Proof. exact (proj2 (plumbing_copiable H T id k b _ [] W vec_body_plumbed vec_id_assign NTv)). Qed.
Lemma vec_ctors : function H T id = Ok (fns_of id (stdVector id T V Z (h_void H) k b)).
Proof. exact (proj1 (ctors_lookup H T id k b _ [] W vec_body_plumbed vec_id_assign eq_refl)). Qed.
Lemma vec_assigns : function H T (lit "operator=") = Ok (fns_of (lit "operator=") (stdVector id T V Z (h_void H) k b)).
Proof. exact (assign_lookup H T id k b _ [] W vec_body_plumbed vec_id_assign eq_refl). Qed.
Lemma gives_dec x : gives x \/ ~ gives x.
Proof. unfold gives. destruct (a_ref (v_arg x)), (a_const (v_arg x)); auto; right; intros (? & ?); discriminate. Qed.
Lemma gives_bool x : ref_eqb (a_ref (v_arg x)) RValue && negb (a_const (v_arg x)) = true <-> gives x.
Proof. unfold gives. destruct (a_ref (v_arg x)), (a_const (v_arg x)); split; intros; try discriminate; auto; destruct H0; discriminate. Qed.

Lemma vec_copy n m st v o l : unborn m (st_next st) -> contents m o l -> handle_to T o v -> ~ gives v ->
  exists w m' st', mcall (vec_body K) (S n) E H m st v id [] = Ok (w, m', st') /\ unborn m' (st_next st') /\
    new_vector T m m' w l /\ contents m' o l /\ separate m' o (fst (v_addr w)) /\
    (forall y, m y <> DNone -> m' y = m y).
Proof.
  intros U C (Tv & Av) Gv. pose proof (arg_of v T Tv) as Ea.
  set (f := Fn id (Arg T Copy false) [Arg T LValue true] (b + 1)).
  assert (Ts : test_sig H f (ret_value H) (map v_arg [v]) = Ok (same_grade (v_arg v) (Arg T LValue true))).
  { cbn [map]. unfold f. rewrite test_one by auto. rewrite Ea at 1. rewrite gT. now rewrite <- Ea. }
  assert (Ng : same_grade (v_arg v) (Arg T LValue true) <> MNone) by (rewrite Ea; apply cref_grade).
  erewrite mcall_chosen with (f := f) (m1 := m); [| | |exact Ts|exact Ng| |].
  2: { rewrite Tv. exact vec_ctors. }
  2: { erewrite (ctor_resolution H T id k b _ [] W vec_body_plumbed vec_id_assign NTd NTv NV); [|reflexivity|].
       - cbn [ctor_choice map]. destruct (ref_eqb (a_ref (v_arg v)) RValue && negb (a_const (v_arg v))) eqn:G; [|reflexivity].
         elim Gv. now apply gives_bool.
       - cbn [map]. constructor; [exact Tv|constructor]. }
  2: { cbn [f_args f pass_all]. rewrite pass_cref by (auto using vec_valid). cbn [bind]. reflexivity. }
  2: { apply ctors_none. }
  cbn [f_code f]. unfold vec_body. rewrite Nat.add_comm, Nat.add_sub. destruct (vec_of_ok m (v_addr v) l) as (buf & Ev & E1 & E2); [now rewrite Av|].
  rewrite Ev. cbn [bind]. unfold wrap_ret. cbn [f_ret f a_type a_ref a_const]. rewrite (nat_eqb_neq _ _ NTd), (nat_eqb_neq _ _ NTv).
  cbn [ref_eqb]. unfold make_value. cbn [a_ref ref_eqb negb]. unfold storable. cbn [cpp_copyable cpp_movable with_ref a_type].
  rewrite (proj1 (vt_copies _ _ _ _ _ _ _ VT)), orb_true_r. cbn [bind]. eexists _, _, _. split; [reflexivity|]. cbn [st_next v_addr fst].
  assert (Lo : o < st_next st) by (apply (born m _ _ U); congruence).
  assert (Lb : buf < st_next st) by (apply (born m _ _ U); congruence).
  split; [intros y Ly; rewrite !mset_other by lia; apply U; lia|]. split.
  { split; [reflexivity|]. split; [reflexivity|]. cbn [v_addr fst]. split; [apply U; lia|]. exists (st_next st).
    rewrite mset_same, mset_other, mset_same by lia. auto. }
  rewrite Av in E1. split; [exists buf; rewrite !mset_other by lia; auto|]. split.
  { split; [lia|]. intros bf. rewrite mset_same, !mset_other by lia. intros Q Q2. assert (bf = buf) by congruence. injection Q2 as Q2. lia. }
  intros y Ny. apply (born m _ _ U) in Ny. rewrite !mset_other by lia. auto.
Qed.

Lemma vec_move n m st v o l : unborn m (st_next st) -> contents m o l -> handle_to T o v -> gives v ->
  exists w m' st', mcall (vec_body K) (S n) E H m st v id [] = Ok (w, m', st') /\ unborn m' (st_next st') /\
    new_vector T m m' w l /\ contents m' o [] /\ separate m' o (fst (v_addr w)) /\
    (forall y, y <> o -> m y <> DNone -> m' y = m y).
Proof.
  intros U C (Tv & Av) Gv. pose proof (arg_of v T Tv) as Ea.
  set (f := Fn id (Arg T Copy false) [Arg T RValue false] (b + 3)).
  assert (Ts : test_sig H f (ret_value H) (map v_arg [v]) = Ok MExact).
  { cbn [map]. unfold f. rewrite test_one by auto. rewrite Ea at 1. rewrite gT. destruct Gv as (-> & ->). reflexivity. }
  erewrite mcall_chosen with (f := f) (m1 := m); [| | |exact Ts|discriminate| |].
  2: { rewrite Tv. exact vec_ctors. }
  2: { erewrite (ctor_resolution H T id k b _ [] W vec_body_plumbed vec_id_assign NTd NTv NV); [|reflexivity|].
       - cbn [ctor_choice map]. apply gives_bool in Gv. rewrite Gv. reflexivity.
       - cbn [map]. constructor; [exact Tv|constructor]. }
  2: { cbn [f_args f pass_all]. rewrite pass_rref; [cbn [bind]; reflexivity|..]; rewrite ?Tv; cbn [a_type a_ref]; auto using vec_valid, vec_movable.
       - apply (vt_copies _ _ _ _ _ _ _ VT).
       - constructor. }
  2: { apply ctors_none. }
  cbn [f_code f]. unfold vec_body. rewrite Nat.add_comm, Nat.add_sub. destruct (vec_of_ok m (v_addr v) l) as (buf & Ev & E1 & E2); [now rewrite Av|].
  rewrite Ev. cbn [bind]. unfold wrap_ret. cbn [f_ret f a_type a_ref a_const]. rewrite (nat_eqb_neq _ _ NTd), (nat_eqb_neq _ _ NTv).
  cbn [ref_eqb]. unfold make_value. cbn [a_ref ref_eqb negb]. unfold storable. cbn [cpp_copyable cpp_movable with_ref a_type].
  rewrite (proj1 (vt_copies _ _ _ _ _ _ _ VT)), orb_true_r. cbn [bind]. eexists _, _, _. split; [reflexivity|]. cbn [st_next v_addr fst].
  rewrite Av in *.
  assert (Lo : o < st_next st) by (apply (born m _ _ U); congruence).
  assert (Lb : buf < st_next st) by (apply (born m _ _ U); congruence).
  assert (No : buf <> o) by congruence.
  split; [intros y Ly; rewrite !mset_other by lia; apply U; lia|]. split.
  { split; [reflexivity|]. split; [reflexivity|]. cbn [v_addr fst]. split; [apply U; lia|]. exists buf.
    rewrite mset_same, !mset_other by lia. auto. }
  split; [exists (st_next st); rewrite (mset_other _ (S _)) by lia; rewrite mset_same, !(mset_other _ (S _)), mset_other by lia; rewrite mset_same; auto|]. split.
  { split; [lia|]. intros bf. rewrite mset_same, mset_other by lia. rewrite mset_same. intros Q Q2. injection Q as Q. injection Q2 as Q2. lia. }
  intros y Ny By. apply (born m _ _ U) in By. rewrite !mset_other by lia. auto.
Qed.

Lemma vec_assign n m st v x o ox l lx : unborn m (st_next st) -> contents m o l -> contents m ox lx ->
  mutable_handle T o v -> handle_to T ox x -> ~ gives x -> (ox <> o -> separate m o ox) ->
  exists w m' st', mcall (vec_body K) (S n) E H m st v (lit "operator=") [x] = Ok (w, m', st') /\ unborn m' (st_next st') /\
    v_arg w = Arg T LValue false /\ v_addr w = v_addr v /\ contents m' o lx /\ contents m' ox lx /\ (ox <> o -> separate m' o ox) /\
    (forall y, y <> o -> m o <> DVec y -> m y <> DNone -> m' y = m y).
Proof.
  intros U C Cx (Ea & Av) (Tx & Ax) Gx Sp. pose proof (arg_of x T Tx) as Ex.
  assert (Tv : v_type v = T) by (unfold v_type; now rewrite Ea).
  set (f := Fn (lit "operator=") (Arg T LValue false) [Arg T LValue false; Arg T LValue true] (b + 2)).
  assert (Ts : test_sig H f (ret_value H) (map v_arg [v; x]) = Ok (combine MExact (same_grade (v_arg x) (Arg T LValue true)))).
  { cbn [map]. unfold f. apply test_two; auto; [rewrite Ea, gT; reflexivity|]. rewrite Ex. apply gT. }
  assert (Ng : combine MExact (same_grade (v_arg x) (Arg T LValue true)) <> MNone).
  { rewrite Ex. pose proof (cref_grade T (a_ref (v_arg x)) (a_const (v_arg x))). now destruct (same_grade _ _). }
  erewrite mcall_chosen with (f := f) (m1 := m); [| | |exact Ts|exact Ng| |].
  2: { rewrite Tv. exact vec_assigns. }
  2: { cbn [map]. erewrite (assign_resolution H T id k b _ [] W vec_body_plumbed vec_id_assign NTd NTv NV); auto.
       unfold assign_choice. rewrite Ea. cbn [a_ref a_const ref_eqb negb andb k_move_assign k_copy_assign].
       destruct (ref_eqb (a_ref (v_arg x)) RValue && negb (a_const (v_arg x))) eqn:G; [|reflexivity].
       elim Gx. now apply gives_bool. }
  2: { cbn [f_args f pass_all]. rewrite pass_mut by (auto using vec_valid). cbn [bind]. rewrite pass_cref by (auto using vec_valid). cbn [bind]. reflexivity. }
  2: { apply ctors_none. }
  cbn [f_code f]. unfold vec_body. rewrite Nat.add_comm, Nat.add_sub. subst o ox.
  destruct (vec_of_ok m (v_addr v) l C) as (buf & Ev & E1 & E2). destruct (vec_of_ok m (v_addr x) lx Cx) as (bx & Eo & X1 & X2).
  rewrite Ev. cbn [bind]. rewrite Eo. cbn [bind]. unfold wrap_ret. cbn [f_ret f a_type a_ref a_const].
  rewrite (nat_eqb_neq _ _ NTd), (nat_eqb_neq _ _ NTv). cbn [ref_eqb bind with_ref cpp_ref_result].
  eexists _, _, _. split; [reflexivity|]. cbn [st_next v_addr v_arg].
  destruct (rebuf_spec m buf (st_next st) (v_addr v) l lx U E1 E2) as (R1 & R2 & R3).
  split; [exact R2|]. split; [reflexivity|]. split; [reflexivity|]. split; [exact R1|].
  destruct (Nat.eq_dec (fst (v_addr x)) (fst (v_addr v))) as [Q|Q].
  { rewrite Q. split; [exact R1|]. split; [tauto|exact R3]. }
  destruct (Sp Q) as (_ & S2).
  assert (K1 : rebuf m buf (st_next st) (v_addr v) lx (fst (v_addr x)) = DVec bx).
  { rewrite R3; auto; congruence. }
  split. { exists bx. split; [exact K1|]. rewrite R3; auto; try congruence. apply not_eq_sym in Q. intro Q2. apply (S2 _ Q2). congruence. }
  split; [|exact R3]. intros _. split; [auto|]. intros bf Q1. rewrite K1. intro Q2. injection Q2 as ->.
  unfold rebuf in Q1. rewrite mset_same in Q1. injection Q1 as Q1. assert (bf < st_next st) by (apply (born m _ _ U); congruence). lia.
Qed.

Lemma vec_move_assign n m st v x o ox l lx : unborn m (st_next st) -> contents m o l -> contents m ox lx ->
  mutable_handle T o v -> handle_to T ox x -> gives x -> separate m o ox ->
  exists w m' st', mcall (vec_body K) (S n) E H m st v (lit "operator=") [x] = Ok (w, m', st') /\ unborn m' (st_next st') /\
    v_arg w = Arg T LValue false /\ v_addr w = v_addr v /\ contents m' o lx /\ contents m' ox [] /\ separate m' o ox /\
    (forall y, y <> o -> y <> ox -> m o <> DVec y -> m y <> DNone -> m' y = m y).
Proof.
  intros U C Cx (Ea & Av) (Tx & Ax) Gx (S1 & S2). pose proof (arg_of x T Tx) as Ex.
  assert (Tv : v_type v = T) by (unfold v_type; now rewrite Ea).
  set (f := Fn (lit "operator=") (Arg T LValue false) [Arg T LValue false; Arg T RValue false] (b + 4)).
  assert (Ts : test_sig H f (ret_value H) (map v_arg [v; x]) = Ok MExact).
  { cbn [map]. unfold f. erewrite test_two; auto; [| rewrite Ea, gT; reflexivity|rewrite Ex; apply gT]. destruct Gx as (-> & ->). reflexivity. }
  erewrite mcall_chosen with (f := f) (m1 := m); [| | |exact Ts|discriminate| |].
  2: { rewrite Tv. exact vec_assigns. }
  2: { cbn [map]. erewrite (assign_resolution H T id k b _ [] W vec_body_plumbed vec_id_assign NTd NTv NV); auto.
       unfold assign_choice. rewrite Ea. cbn [a_ref a_const ref_eqb negb andb k_move_assign k_copy_assign].
       apply gives_bool in Gx. rewrite Gx. reflexivity. }
  2: { cbn [f_args f pass_all]. rewrite pass_mut by (auto using vec_valid). cbn [bind].
       rewrite pass_rref; [cbn [bind]; reflexivity|..]; rewrite ?Tx; cbn [a_type a_ref]; auto using vec_valid, vec_movable.
       - apply (vt_copies _ _ _ _ _ _ _ VT).
       - constructor. }
  2: { apply ctors_none. }
  cbn [f_code f]. unfold vec_body. rewrite Nat.add_comm, Nat.add_sub. subst o ox.
  destruct (vec_of_ok m (v_addr v) l C) as (buf & Ev & E1 & E2). destruct (vec_of_ok m (v_addr x) lx Cx) as (bx & Eo & X1 & X2).
  rewrite Ev. cbn [bind]. rewrite Eo. cbn [bind]. unfold wrap_ret. cbn [f_ret f a_type a_ref a_const].
  rewrite (nat_eqb_neq _ _ NTd), (nat_eqb_neq _ _ NTv). cbn [ref_eqb bind with_ref cpp_ref_result].
  eexists _, _, _. split; [reflexivity|]. cbn [st_next v_addr v_arg].
  assert (L1 : fst (v_addr v) < st_next st) by (apply (born m _ _ U); congruence).
  assert (L2 : fst (v_addr x) < st_next st) by (apply (born m _ _ U); congruence).
  assert (L3 : buf < st_next st) by (apply (born m _ _ U); congruence).
  assert (L4 : bx < st_next st) by (apply (born m _ _ U); congruence).
  assert (N1 : bx <> buf) by (intros ->; apply (S2 buf); auto).
  assert (N2 : bx <> fst (v_addr v)) by congruence. assert (N3 : bx <> fst (v_addr x)) by congruence.
  split; [intros y Ly; rewrite !mset_other by lia; apply U; lia|]. split; [reflexivity|]. split; [reflexivity|].
  split; [exists bx; rewrite mset_same, !mset_other by lia; auto|].
  split; [exists (st_next st); rewrite mset_other by lia; rewrite mset_same; split; [auto|]; rewrite !(mset_other _ (fst _)) by lia; now rewrite mset_same|].
  split. { split; [auto|]. intros bf. rewrite mset_same, mset_other by lia. rewrite mset_same. intros Q Q2. injection Q as Q. injection Q2 as Q2. lia. }
  intros y Y1 Y2 Y3 Y4. apply (born m _ _ U) in Y4. assert (y <> buf) by congruence. rewrite !mset_other by lia. auto.
Qed.

Lemma element_result m o buf l i c : m o = DVec buf -> m buf = DBuf l -> N.to_nat i < length l ->
  is_result H V Z m o l (Val (Arg V LValue c) (buf, i) false) (Element (N.to_nat i) (negb c)).
Proof.
  intros E1 E2 L. cbn [is_result v_arg v_stored v_addr]. rewrite negb_involutive. split; [reflexivity|]. split; [reflexivity|].
  split. { unfold read. cbn [fst snd]. now rewrite E2. } split; [exact L|]. intro p.
  destruct (element_write m o buf l (N.to_nat i) p E1 E2 L) as (l' & Q). rewrite N2Nat.id in Q. eauto.
Qed.

Lemma vec_step n m st v o l op args l' r : unborn m (st_next st) -> contents m o l ->
  (if vecop_mutates op then mutable_handle T o v else handle_to T o v) ->
  Forall2 (fun x a => holds m x (fst a) (snd a)) args (vecop_args V Z op) ->
  (forall p x, op = OPush p -> args = [x] -> gives x -> outside m o x /\ isMovable H V = Ok true /\ cpp_movable E V = true) ->
  VecDoes (k_dflt K) l op l' r ->
  exists w m' st', mcall (vec_body K) (S (S n)) E H m st v (vecop_name op) args = Ok (w, m', st') /\
    unborn m' (st_next st') /\ contents m' o l' /\ is_result H V Z m' o l' w r /\
    ((forall y, m' o = DVec y -> m o = DVec y \/ m y = DNone) /\ forall y, m o = DVec y -> m' y = DNone \/ m' o = DVec y) /\
    (forall p x, op = OPush p -> args = [x] -> gives x -> read m' (v_addr x) = Some (k_moved K)) /\
    (forall y, y <> o -> (vecop_mutates op = true -> m o <> DVec y) ->
       (forall p x, op = OPush p -> In x args -> gives x -> y <> fst (v_addr x)) -> m y <> DNone -> m' y = m y).
Proof.
  intros U C Hv Fa Gx D. assert (Bo : m o <> DNone) by (destruct C as (bf & Q & _); congruence).
  inversion D; subst; cbn [vecop_args vecop_mutates vecop_name] in *.
  - apply forall2_none in Fa as ->. destruct (vec_size n m st v o l' U C Hv) as (w & m' & st' & Q1 & Q2 & Q3 & Q4 & Q5).
    exists w, m', st'. repeat split; auto; try (apply Q4); try discriminate; intros y; [|intros Qy; right]; rewrite Q5 by auto; auto.
  - apply forall2_none in Fa as ->. destruct (vec_clear n m st v o l U C Hv) as (w & m' & st' & Q1 & Q2 & Q3 & Q4 & Q5 & Q6).
    destruct Q5 as (Q5 & Q5').
    exists w, m', st'. repeat split; auto; discriminate.
  - apply forall2_one in Fa as (x & -> & Hx). cbn [fst snd] in Hx.
    destruct (vec_resize n m st v o l U C x n0 Hv Hx) as (w & m' & st' & Q1 & Q2 & Q3 & Q4 & Q5 & Q6).
    destruct Q5 as (Q5 & Q5').
    exists w, m', st'. rewrite (padded_unique _ _ _ _ _ H0 (resized_padded _ _ _)). repeat split; auto; discriminate.
  - apply forall2_one in Fa as (x & -> & Hx). cbn [fst snd] in Hx.
    destruct (vec_push n m st v o l U C x p Hv Hx) as (w & m' & st' & Q1 & Q2 & Q3 & Q4 & Q5 & Q6 & Q7).
    { intro G. apply (Gx p x); auto. } { intro G. apply (Gx p x); auto. }
    destruct Q5 as (Q5 & Q5'). exists w, m', st'. repeat split; auto.
    + intros p' x' _ Ex. injection Ex as <-. exact Q6.
    + intros y Y1 Y2 Y3. apply Q7; auto. intros G. apply (Y3 p x); cbn; auto.
  - apply forall2_one in Fa as (x & -> & Hx). cbn [fst snd] in Hx.
    assert (Hh : handle_to T o v) by (destruct Hv as (Q & Q'); split; auto; unfold v_type; now rewrite Q).
    destruct (vec_index_gen n m st v o l' U C (lit "operator[]") false x i 10) as (buf & m' & Q1 & Q2 & Q3 & Q4 & Q5 & _); auto.
    destruct (Q5 H0) as (st' & En & Q6). exists (Val (Arg V LValue false) (buf, i) false), m', st'.
    split; [exact Q6|]. split; [now rewrite En|]. split; [exists buf; auto|]. split; [now apply (element_result m' o buf l' i false)|].
    split; [split; intros y; [|intros Qy; right]; rewrite Q4 by auto; auto|]. split; [discriminate|]. intros y _ _ _. apply Q4.
  - apply forall2_one in Fa as (x & -> & Hx). cbn [fst snd] in Hx.
    destruct (vec_index_gen n m st v o l' U C (lit "at") true x i 11) as (buf & m' & Q1 & Q2 & Q3 & Q4 & Q5 & _); auto. { discriminate. }
    destruct (Q5 H0) as (st' & En & Q6). exists (Val (Arg V LValue true) (buf, i) false), m', st'.
    split; [exact Q6|]. split; [now rewrite En|]. split; [exists buf; auto|]. split; [now apply (element_result m' o buf l' i true)|].
    split; [split; intros y; [|intros Qy; right]; rewrite Q4 by auto; auto|]. split; [discriminate|]. intros y _ _ _. apply Q4.
Qed.

Lemma result_still m o l w r : is_result H V Z m o l w r -> still_result H Z m w r.
Proof. destruct r; cbn; auto. Qed.

Lemma vec_history n v o : mutable_handle T o v -> forall ops steps m st l l' rs,
  unborn m (st_next st) -> contents m o l ->
  Forall2 (fun step op => fst step = vecop_name op /\
     Forall2 (fun x a => holds m x (fst a) (snd a)) (snd step) (vecop_args V Z op) /\
     Forall (fun x => outside m o x /\ ~ gives x) (snd step)) steps ops ->
  VecRuns (k_dflt K) l ops l' rs ->
  exists ws m' st', mcalls (vec_body K) (S (S n)) E H m st v steps = Ok (ws, m', st') /\
    unborn m' (st_next st') /\ contents m' o l' /\ Forall2 (still_result H Z m') ws rs /\
    (forall y, y <> o -> m o <> DVec y -> m y <> DNone -> m' y = m y /\ m' o <> DVec y).
Proof.
  intros Hv. assert (Hh : handle_to T o v) by (destruct Hv as (Q & Q'); split; auto; unfold v_type; now rewrite Q).
  induction ops as [|op ops IH]; intros steps m st l l' rs U C F R.
  - inversion F; subst. inversion R; subst. exists [], m, st. cbn [mcalls]. repeat split; auto.
  - inversion F as [|(name & args) a xs ys (En & Fa & Fo) Fr]; subst. inversion R as [|? ? l1 r ? ? rs' D R']; subst. cbn [fst snd] in *. subst name.
    destruct (vec_step n m st v o l op args l1 r U C) as (w & m1 & st1 & Q1 & Q2 & Q3 & Q4 & (Q5 & _) & _ & Q7); auto.
    { destruct (vecop_mutates op); auto. }
    { intros p x _ -> G. inversion Fo as [|? ? (_ & NG)]; contradiction. }
    assert (Fr1 : forall y, y <> o -> m o <> DVec y -> m y <> DNone -> m1 y = m y /\ m1 o <> DVec y).
    { intros y Y1 Y2 Y3. split.
      - apply Q7; auto. intros p x _ I G. apply (proj1 (Forall_forall _ _) Fo) in I. tauto.
      - intro Q. destruct (Q5 y Q) as [Q'|Q']; congruence. }
    destruct (IH xs m1 st1 l1 l' rs' Q2 Q3) as (ws & m2 & st2 & P1 & P2 & P3 & P4 & P5); auto.
    { eapply forall2_impl; [|exact Fr]. intros (nm & vs) op' (A1 & A2 & A3). cbn [fst snd] in *. split; [exact A1|].
      assert (Z1 : forall x X p, In x vs -> holds m x X p -> holds m1 x X p /\ outside m1 o x).
      { intros x X p I (H1 & H2). apply (proj1 (Forall_forall _ _) A3) in I as ((O1 & O2) & _).
        assert (m (fst (v_addr x)) <> DNone) by (intro Q; unfold read in H2; rewrite Q in H2; discriminate).
        destruct (Fr1 (fst (v_addr x))) as (Y1 & Y2); auto. split; [|split; auto]. split; [exact H1|]. unfold read in *. now rewrite Y1. }
      clear - A2 A3 Z1. revert A3 Z1. induction A2 as [|x a vs as_ Hx A2 IHA]; intros; split; auto.
      - constructor; [apply (Z1 x _ _ (or_introl eq_refl) Hx)|]. apply IHA; [now inversion A3|]. intros; apply Z1; cbn; auto.
      - inversion A3 as [|? ? (_ & NG) A3']; subst. constructor; [split; [apply (Z1 x _ _ (or_introl eq_refl) Hx)|exact NG]|].
        apply IHA; [exact A3'|]. intros; apply Z1; cbn; auto. }
    exists (w :: ws), m2, st2. cbn [mcalls]. rewrite Q1. cbn [bind]. rewrite P1. cbn [bind]. split; [reflexivity|]. split; [exact P2|]. split; [exact P3|]. split.
    + constructor; auto. pose proof (result_still _ _ _ _ _ Q4) as S1. destruct r; cbn in S1 |- *; auto.
      destruct S1 as (S1 & S2 & S3 & S4). split; [exact S1|]. split; [exact S2|]. split; [exact S3|].
      destruct Q3 as (bf & X1 & X2). destruct (P5 (fst (v_addr w))) as (-> & _); auto; congruence.
    + intros y Y1 Y2 Y3. destruct (Fr1 y Y1 Y2 Y3) as (Z1 & Z2). destruct (P5 y Y1 Z2) as (Z3 & Z4); [congruence|]. split; [congruence|exact Z4].
Qed.
End Vector.
