(* ProofPlain.v - numbers, strings and plain classes, one call at a time (used by
   PropPlain, C72). *)
From Coq Require String.
Import String.StringSyntax.
From Verif Require Import Base ModelCore SpecCore ProofCore ProofMatch ModelValue SpecValue ProofValue ModelPlumb SpecPlumb ProofPlumb ProofPlumb2 ProofPlumb3 ModelCont SpecCont ProofCont ProofCont2 ModelPtr SpecPtr ProofPtr ProofPtr2 ModelPlain SpecPlain.

(* ----- integers ----- *)
Lemma pow2_pos z : (0 <= z)%Z -> (0 < 2 ^ z)%Z.
Proof. intro. apply Z.pow_pos_nonneg; lia. Qed.
Lemma pow2_split bits : (0 < bits)%N -> (2 ^ Z.of_N bits = 2 * 2 ^ (Z.of_N bits - 1))%Z.
Proof. intro. replace (Z.of_N bits) with (Z.succ (Z.of_N bits - 1)) at 1 by lia. rewrite Z.pow_succ_r by lia. reflexivity. Qed.
Lemma represents_pos bits signed p z : represents bits signed p z -> signed = true -> (0 < bits)%N.
Proof.
  intros (R & _) ->. unfold in_range in R. destruct (N.eq_dec bits 0) as [->|]; [|lia]. cbn in R. lia.
Qed.
Lemma decode_represents bits signed p z : represents bits signed p z -> decode bits signed p = z.
Proof.
  intros R. pose proof (represents_pos _ _ _ _ R) as B. destruct R as (R & Q). unfold decode. destruct signed; cbn [andb].
  - specialize (B eq_refl). pose proof (pow2_split bits B) as S2. unfold in_range in R.
    assert (E : Z.of_N (2 ^ (bits - 1)) = (2 ^ (Z.of_N bits - 1))%Z) by (rewrite N2Z.inj_pow, N2Z.inj_sub by lia; reflexivity).
    destruct (N.leb_spec (2 ^ (bits - 1)) p) as [L|L]; apply N2Z.inj_le in L || apply N2Z.inj_lt in L; rewrite E in L; destruct Q as [Q|(Q1 & Q2)]; lia.
  - unfold in_range in R. destruct Q as [Q|(Q1 & Q2)]; lia.
Qed.
Lemma represents_decode bits signed p : (signed = true -> 0 < bits)%N -> (p < 2 ^ bits)%N -> represents bits signed p (decode bits signed p).
Proof.
  intros B L. apply N2Z.inj_lt in L. rewrite N2Z.inj_pow in L. change (Z.of_N 2) with 2%Z in L. unfold decode, represents, in_range. destruct signed; cbn [andb].
  - specialize (B eq_refl). pose proof (pow2_split bits B) as S2.
    assert (E : Z.of_N (2 ^ (bits - 1)) = (2 ^ (Z.of_N bits - 1))%Z) by (rewrite N2Z.inj_pow, N2Z.inj_sub by lia; reflexivity).
    destruct (N.leb_spec (2 ^ (bits - 1)) p) as [M|M]; apply N2Z.inj_le in M || apply N2Z.inj_lt in M; rewrite E in M; lia.
  - lia.
Qed.
Lemma encode_represents bits signed z : (signed = true -> 0 < bits)%N -> in_range bits signed z -> represents bits signed (encode bits z) z.
Proof.
  intros B R. split; [exact R|]. unfold encode. pose proof (pow2_pos (Z.of_N bits) ltac:(lia)) as P.
  rewrite Z2N.id by (apply Z.mod_pos_bound; lia). unfold in_range in R. destruct signed.
  - specialize (B eq_refl). pose proof (pow2_split bits B) as S2. pose proof (pow2_pos (Z.of_N bits - 1) ltac:(lia)).
    destruct (Z_lt_le_dec z 0) as [L|L].
    + right. split; [exact L|]. symmetry. apply (Z.mod_unique _ _ (-1)); lia.
    + left. apply Z.mod_small. lia.
  - left. apply Z.mod_small. lia.
Qed.
Lemma encode_mod bits z : represents bits false (encode bits z) (z mod 2 ^ Z.of_N bits)%Z.
Proof.
  pose proof (pow2_pos (Z.of_N bits) ltac:(lia)) as P. pose proof (Z.mod_pos_bound z _ P) as M. split; [exact M|]. left. unfold encode. apply Z2N.id. lia.
Qed.
Lemma sum_ok ar p q : sum_fits ar p q -> exists r, sum ar p q = Ok r /\ is_sum ar p q r.
Proof.
  destruct ar as [bits signed|add]; cbn; [|eauto]. unfold sum_type, promoted.
  destruct (if N.ltb bits 32 then (32%N, true) else (bits, signed)) as [rb rs] eqn:E. intros (x & y & Rx & Ry & F).
  rewrite (decode_represents _ _ _ _ Rx), (decode_represents _ _ _ _ Ry).
  assert (U : forall x' y', represents bits signed p x' -> represents bits signed q y' -> x' = x /\ y' = y).
  { intros x' y' Rx' Ry'. split; [rewrite <- (decode_represents _ _ _ _ Rx'); now apply decode_represents|rewrite <- (decode_represents _ _ _ _ Ry'); now apply decode_represents]. }
  destruct rs; cbn [andb].
  - assert (B : (0 < rb)%N).
    { destruct (N.ltb bits 32); injection E; intros; subst; [lia|]. now apply (represents_pos _ _ _ _ Rx). }
    specialize (F eq_refl). assert (R := encode_represents rb true (x + y) (fun _ => B) F). unfold in_range in F.
    rewrite (proj2 (Z.leb_le _ _)) by lia. rewrite (proj2 (Z.ltb_lt _ _)) by lia. cbn [andb negb]. eexists. split; [reflexivity|].
    intros x' y' Rx' Ry'. destruct (U _ _ Rx' Ry') as (-> & ->). eauto.
  - eexists. split; [reflexivity|]. intros x' y' Rx' Ry'. destruct (U _ _ Rx' Ry') as (-> & ->). eexists. split; [apply encode_mod|].
    exists (- ((x + y) / 2 ^ Z.of_N rb))%Z. pose proof (pow2_pos (Z.of_N rb) ltac:(lia)). pose proof (Z.div_mod (x + y) (2 ^ Z.of_N rb)). lia.
Qed.
(* a type smaller than int never overflows *)
Lemma small_fits bits signed p q : (bits <= 16)%N -> (signed = true -> 0 < bits)%N -> (p < 2 ^ bits)%N -> (q < 2 ^ bits)%N -> sum_fits (AInt bits signed) p q.
Proof.
  intros L B Lp Lq. unfold sum_fits, sum_type. rewrite (proj2 (N.ltb_lt bits 32)) by lia.
  pose proof (represents_decode bits signed p B Lp) as Rp. pose proof (represents_decode bits signed q B Lq) as Rq.
  eexists _, _. split; [exact Rp|]. split; [exact Rq|]. intros _. destruct Rp as (Rp & _), Rq as (Rq & _). unfold in_range in *.
  change (2 ^ (Z.of_N 32 - 1))%Z with 2147483648%Z. destruct signed.
  - assert (2 ^ (Z.of_N bits - 1) <= 2 ^ 30)%Z by (apply Z.pow_le_mono_r; lia). change (2 ^ 30)%Z with 1073741824%Z in *. lia.
  - assert (2 ^ Z.of_N bits <= 2 ^ 16)%Z by (apply Z.pow_le_mono_r; lia). change (2 ^ 16)%Z with 65536%Z in *. lia.
Qed.

(* ----- memory ----- *)
Lemma same_spec a c : same a c = true <-> a = c.
Proof.
  unfold same. destruct a as [x i], c as [y j]. cbn. rewrite andb_true_iff, Nat.eqb_eq, N.eqb_eq. split; [intros (-> & ->); reflexivity|intros [= -> ->]; auto].
Qed.
Lemma same_refl a : same a a = true.
Proof. now apply same_spec. Qed.
Lemma same_neq a c : a <> c -> same a c = false.
Proof. intros N. destruct (same a c) eqn:E; [now apply same_spec in E|reflexivity]. Qed.
Lemma read_write m a p c : read m a <> None -> read (write m a p) c = put (read m) a (Some p) c.
Proof.
  intros R. unfold put. destruct (same c a) eqn:Sc.
  - apply same_spec in Sc as ->. unfold write, read in *. destruct (m (fst a)) as [|d| |l| | | |] eqn:E; try congruence.
    + rewrite mset_same. destruct (N.eqb (snd a) 0); [reflexivity|congruence].
    + rewrite mset_same. apply set_at_same. now apply nth_error_Some.
  - unfold write, read in *. destruct (m (fst a)) as [|d| |l| | | |] eqn:E; try congruence.
    + destruct (Nat.eq_dec (fst c) (fst a)) as [Q|Q]; [|now rewrite mset_other by auto]. rewrite Q, mset_same, E.
      destruct (N.eqb_spec (snd a) 0) as [Z|]; [|congruence]. destruct (N.eqb_spec (snd c) 0) as [Z'|]; [|reflexivity].
      exfalso. assert (c = a) as -> by (destruct a, c; cbn in *; congruence). rewrite same_refl in Sc. discriminate.
    + destruct (Nat.eq_dec (fst c) (fst a)) as [Q|Q]; [|now rewrite mset_other by auto]. rewrite Q, mset_same, E.
      apply set_at_other. intro Z. apply N2Nat.inj in Z. assert (c = a) as -> by (destruct a, c; cbn in *; congruence). rewrite same_refl in Sc. discriminate.
Qed.
Lemma write_frame m a p y : y <> fst a -> write m a p y = m y.
Proof. intros N. unfold write. destruct (m (fst a)); auto; now apply mset_other. Qed.
Lemma write_alive m a p y : write m a p y <> DNone <-> m y <> DNone.
Proof.
  destruct (Nat.eq_dec y (fst a)) as [->|N]; [|now rewrite write_frame by auto].
  unfold write. destruct (m (fst a)) eqn:E; rewrite ?mset_same, ?E; split; intros Q; (exact Q || discriminate).
Qed.
Lemma write_unborn m a p next : unborn m next -> unborn (write m a p) next.
Proof.
  intros U y L. specialize (U y L). pose proof (proj1 (write_alive m a p y)) as Q. destruct (write m a p y) eqn:E; auto; exfalso; (apply Q; [discriminate|exact U]).
Qed.
Lemma get_read m a p : read m a = Some p -> get m a = Ok p.
Proof. intros R. unfold get. now rewrite R. Qed.
Lemma read_born m a : read m a <> None -> m (fst a) <> DNone.
Proof. unfold read. destruct (m (fst a)); congruence. Qed.
Lemma read_mset_other m o d a : fst a <> o -> read (mset m o d) a = read m a.
Proof. intros N. unfold read. now rewrite mset_other by auto. Qed.
Lemma read_fresh m o p : read (mset m o (DData p)) (o, 0%N) = Some p.
Proof. unfold read. cbn [fst snd]. now rewrite mset_same. Qed.

(* ----- the members of a plumbed type ----- *)
Section Plumbed.
Context (E : cpp) (H : heap) (T : tptr) (id : str) (b : nat) (rs : list reg).
Notation k := (Caps true true true true true).
Context (W : wf_heap H) (PB : plumbed_body H T id k b rs []) (NA : id <> lit "operator=").
Context (NV : h_value H <> h_void H) (NTd : T <> h_void H) (NTv : T <> h_value H) (Cm : cpp_movable E T = true) (Cc : cpp_copyable E T = true).

Lemma pb_valid : valid H T.
Proof. destruct (pb_carries _ _ _ _ _ _ _ PB) as (t & Et & _). eapply tget_valid; eauto. Qed.
Lemma pb_grade r c r' c' : isConvertibleTo H (Arg T r c) (Arg T r' c') = Ok (same_grade (Arg T r c) (Arg T r' c')).
Proof. apply same_type_grade; auto using pb_valid. exact (pl_noconv H T id k b _ _ PB). Qed.
Lemma pb_movable : isMovable H T = Ok true.
Proof. exact (proj2 (plumbing_copiable H T id k b _ _ W PB NA NTv)). Qed.
Lemma pb_plumbed : plumbed E H T T.
Proof. exact (plumbing_plumbed H T id k b rs [] W PB NA NTd NTv E Cc Cm eq_refl eq_refl). Qed.
Lemma pb_ctors_fn : function H T id = Ok (fns_of id rs).
Proof. exact (proj1 (ctors_lookup H T id k b _ _ W PB NA eq_refl)). Qed.
Lemma pb_assigns_fn : function H T (lit "operator=") = Ok (fns_of (lit "operator=") rs).
Proof. now apply (assign_lookup H T id k b _ _ W PB NA). Qed.

Section Shapes.
Context (Bd : body) (n : nat) (m : mem) (st : state).
Lemma pb_new : mtype_call Bd (S n) E H m st T id [] =
  bind (Bd (b + 0) [] m (st_next st)) (finish E H (Fn id (Arg T Copy false) [] b) [] (st_log st)).
Proof.
  set (f := Fn id (Arg T Copy false) [] b).
  assert (Ts : test_sig H f (ret_value H) (map v_arg []) = Ok MExact) by exact (pl_test0 H T NTd NTv NV id Copy false b).
  rewrite Nat.add_0_r.
  apply (mtype_chosen Bd (S n) E H m st T id [] _ f MExact [] st m pb_ctors_fn) with (2 := Ts); [|discriminate|reflexivity|apply ctors_none].
  apply (ctor_resolution H T id k b _ _ W PB NA NTd NTv NV []); [reflexivity|constructor].
Qed.
Lemma pb_move x : v_type x = T -> gives x -> mtype_call Bd (S n) E H m st T id [x] =
  bind (Bd (b + 3) [PMove (v_addr x)] m (st_next st)) (finish E H (Fn id (Arg T Copy false) [Arg T RValue false] (b + 3)) [PMove (v_addr x)] (st_log st)).
Proof.
  intros Tv Gv. pose proof (arg_of x T Tv) as Ea. set (f := Fn id (Arg T Copy false) [Arg T RValue false] (b + 3)).
  assert (Ts : test_sig H f (ret_value H) (map v_arg [x]) = Ok MExact).
  { cbn [map]. unfold f. rewrite test_one by auto. rewrite Ea at 1. rewrite pb_grade. destruct Gv as (-> & ->). reflexivity. }
  apply (mtype_chosen Bd (S n) E H m st T id [x] _ f MExact [PMove (v_addr x)] st m pb_ctors_fn) with (2 := Ts); [|discriminate| |apply ctors_none].
  - erewrite (ctor_resolution H T id k b _ _ W PB NA NTd NTv NV); [|reflexivity|cbn [map]; constructor; [exact Tv|constructor]].
    cbn [ctor_choice map]. apply gives_bool in Gv. rewrite Gv. reflexivity.
  - cbn [f_args f pass_all]. rewrite pass_rref; [cbn [bind]; reflexivity|..]; rewrite ?Tv; cbn [a_type a_ref]; auto using pb_valid, pb_movable. constructor.
Qed.
Lemma pb_copy x : v_type x = T -> ~ gives x -> mtype_call Bd (S n) E H m st T id [x] =
  bind (Bd (b + 1) [PRef (v_addr x)] m (st_next st)) (finish E H (Fn id (Arg T Copy false) [Arg T LValue true] (b + 1)) [PRef (v_addr x)] (st_log st)).
Proof.
  intros Tv Gv. pose proof (arg_of x T Tv) as Ea. set (f := Fn id (Arg T Copy false) [Arg T LValue true] (b + 1)).
  assert (Ts : test_sig H f (ret_value H) (map v_arg [x]) = Ok (same_grade (v_arg x) (Arg T LValue true))).
  { cbn [map]. unfold f. rewrite test_one by auto. rewrite Ea at 1. rewrite pb_grade. now rewrite <- Ea. }
  assert (Ng : same_grade (v_arg x) (Arg T LValue true) <> MNone) by (rewrite Ea; apply cref_grade).
  apply (mtype_chosen Bd (S n) E H m st T id [x] _ f _ [PRef (v_addr x)] st m pb_ctors_fn) with (2 := Ts) (3 := Ng); [| |apply ctors_none].
  - erewrite (ctor_resolution H T id k b _ _ W PB NA NTd NTv NV); [|reflexivity|cbn [map]; constructor; [exact Tv|constructor]].
    cbn [ctor_choice map k_copy]. destruct (ref_eqb (a_ref (v_arg x)) RValue && negb (a_const (v_arg x))) eqn:G; [elim Gv; now apply gives_bool|reflexivity].
  - cbn [f_args f pass_all]. rewrite pass_cref by (auto using pb_valid). reflexivity.
Qed.
Lemma pb_assign v x : v_arg v = Arg T LValue false -> v_type x = T -> ~ gives x -> mtype_call Bd (S n) E H m st T (lit "operator=") [v; x] =
  bind (Bd (b + 2) [PRef (v_addr v); PRef (v_addr x)] m (st_next st))
    (finish E H (Fn (lit "operator=") (Arg T LValue false) [Arg T LValue false; Arg T LValue true] (b + 2)) [PRef (v_addr v); PRef (v_addr x)] (st_log st)).
Proof.
  intros Ea Tx Gx. pose proof (arg_of x T Tx) as Ex.
  assert (Tv : v_type v = T) by (unfold v_type; now rewrite Ea).
  set (f := Fn (lit "operator=") (Arg T LValue false) [Arg T LValue false; Arg T LValue true] (b + 2)).
  assert (Ts : test_sig H f (ret_value H) (map v_arg [v; x]) = Ok (combine MExact (same_grade (v_arg x) (Arg T LValue true)))).
  { cbn [map]. unfold f. apply test_two; auto; [rewrite Ea, pb_grade; reflexivity|]. rewrite Ex. apply pb_grade. }
  assert (Ng : combine MExact (same_grade (v_arg x) (Arg T LValue true)) <> MNone).
  { rewrite Ex. pose proof (cref_grade T (a_ref (v_arg x)) (a_const (v_arg x))). now destruct (same_grade _ _). }
  apply (mtype_chosen Bd (S n) E H m st T (lit "operator=") [v; x] _ f _ [PRef (v_addr v); PRef (v_addr x)] st m pb_assigns_fn) with (2 := Ts) (3 := Ng); [| |apply ctors_none].
  - cbn [map]. erewrite (assign_resolution H T id k b _ _ W PB NA NTd NTv NV); auto.
    unfold assign_choice. rewrite Ea. cbn [a_ref a_const ref_eqb negb andb k_move_assign k_copy_assign].
    destruct (ref_eqb (a_ref (v_arg x)) RValue && negb (a_const (v_arg x))) eqn:G; [elim Gx; now apply gives_bool|reflexivity].
  - cbn [f_args f pass_all]. rewrite pass_mut by (auto using pb_valid). cbn [bind]. rewrite pass_cref by (auto using pb_valid). reflexivity.
Qed.
Lemma pb_move_assign v x : v_arg v = Arg T LValue false -> v_type x = T -> gives x -> mtype_call Bd (S n) E H m st T (lit "operator=") [v; x] =
  bind (Bd (b + 4) [PRef (v_addr v); PMove (v_addr x)] m (st_next st))
    (finish E H (Fn (lit "operator=") (Arg T LValue false) [Arg T LValue false; Arg T RValue false] (b + 4)) [PRef (v_addr v); PMove (v_addr x)] (st_log st)).
Proof.
  intros Ea Tx Gx. pose proof (arg_of x T Tx) as Ex.
  assert (Tv : v_type v = T) by (unfold v_type; now rewrite Ea).
  set (f := Fn (lit "operator=") (Arg T LValue false) [Arg T LValue false; Arg T RValue false] (b + 4)).
  assert (Ts : test_sig H f (ret_value H) (map v_arg [v; x]) = Ok MExact).
  { cbn [map]. unfold f. erewrite test_two; auto; [| rewrite Ea, pb_grade; reflexivity|rewrite Ex; apply pb_grade]. destruct Gx as (-> & ->). reflexivity. }
  apply (mtype_chosen Bd (S n) E H m st T (lit "operator=") [v; x] _ f MExact [PRef (v_addr v); PMove (v_addr x)] st m pb_assigns_fn) with (2 := Ts); [|discriminate| |apply ctors_none].
  - cbn [map]. erewrite (assign_resolution H T id k b _ _ W PB NA NTd NTv NV); auto.
    unfold assign_choice. rewrite Ea. cbn [a_ref a_const ref_eqb negb andb k_move_assign k_copy_assign].
    apply gives_bool in Gx. rewrite Gx. reflexivity.
  - cbn [f_args f pass_all]. rewrite pass_mut by (auto using pb_valid). cbn [bind].
    rewrite pass_rref; [cbn [bind]; reflexivity|..]; rewrite ?Tx; cbn [a_type a_ref]; auto using pb_valid, pb_movable. constructor.
Qed.
Lemma pb_no_assign v x : v_type v = T -> v_type x = T -> (a_ref (v_arg v) <> LValue \/ a_const (v_arg v) = true) ->
  mtype_call Bd n E H m st T (lit "operator=") [v; x] = Abort.
Proof.
  intros Tv Tx D. eapply mtype_none; [exact pb_assigns_fn|]. cbn [map].
  erewrite (assign_resolution H T id k b _ _ W PB NA NTd NTv NV); auto.
  unfold assign_choice. destruct (negb (ref_eqb (a_ref (v_arg v)) LValue && negb (a_const (v_arg v)))) eqn:Q; [reflexivity|].
  exfalso. destruct (a_ref (v_arg v)), (a_const (v_arg v)); try discriminate; destruct D as [D|D]; congruence.
Qed.
(* a member of its own, taking the object by constant reference *)
Lemma pb_call1c name ret code v : function H T name = Ok [Fn name ret [Arg T LValue true] code] -> a_type ret <> h_value H -> v_type v = T ->
  mtype_call Bd (S n) E H m st T name [v] =
    bind (Bd code [PRef (v_addr v)] m (st_next st)) (finish E H (Fn name ret [Arg T LValue true] code) [PRef (v_addr v)] (st_log st)).
Proof.
  intros Fo Rv Tv. pose proof (arg_of v T Tv) as Ea. set (f := Fn name ret [Arg T LValue true] code) in *.
  assert (Ts : test_sig H f (ret_value H) (map v_arg [v]) = Ok (same_grade (v_arg v) (Arg T LValue true))).
  { cbn [map]. unfold f. rewrite test_one by auto. rewrite Ea at 1. rewrite pb_grade. now rewrite <- Ea. }
  assert (Ng : same_grade (v_arg v) (Arg T LValue true) <> MNone) by (rewrite Ea; apply cref_grade).
  apply (mtype_chosen Bd (S n) E H m st T name [v] _ f _ [PRef (v_addr v)] st m Fo) with (2 := Ts) (3 := Ng).
  - rewrite (resolve_one _ _ _ _ _ Ts). destruct (same_grade _ _); [congruence|reflexivity..].
  - cbn [f_args f pass_all]. rewrite pass_cref by (auto using pb_valid). reflexivity.
  - apply ctors_none.
Qed.
(* and one more by value *)
Lemma pb_call2v name ret code v x p : function H T name = Ok [Fn name ret [Arg T LValue true; Arg T Copy false] code] -> a_type ret <> h_value H ->
  v_type v = T -> v_type x = T -> read m (v_addr x) = Some p -> exists log,
  mtype_call Bd (S (S n)) E H m st T name [v; x] =
    bind (Bd code [PRef (v_addr v); PCopy (st_next st, 0%N)] (mset m (st_next st) (DData p)) (S (st_next st)))
      (finish E H (Fn name ret [Arg T LValue true; Arg T Copy false] code) [PRef (v_addr v); PCopy (st_next st, 0%N)] log).
Proof.
  intros Fo Rv Tv Tx Rx. pose proof (arg_of v T Tv) as Ea. pose proof (arg_of x T Tx) as Ex.
  destruct (pass_index n E H st x T W NV pb_valid pb_plumbed Tx) as (code' & q & Ep & Q).
  set (f := Fn name ret [Arg T LValue true; Arg T Copy false] code) in *.
  assert (Ts : test_sig H f (ret_value H) (map v_arg [v; x]) = Ok (combine (same_grade (v_arg v) (Arg T LValue true)) (same_grade (v_arg x) (Arg T Copy false)))).
  { cbn [map]. unfold f. apply test_two; auto; [rewrite Ea; apply pb_grade|rewrite Ex; apply pb_grade]. }
  assert (Ng : combine (same_grade (v_arg v) (Arg T LValue true)) (same_grade (v_arg x) (Arg T Copy false)) <> MNone).
  { rewrite Ea, Ex. pose proof (cref_grade T (a_ref (v_arg v)) (a_const (v_arg v))). pose proof (copy_grade T (a_ref (v_arg x)) (a_const (v_arg x))).
    now destruct (same_grade (Arg T (a_ref (v_arg v)) _) _), (same_grade (Arg T (a_ref (v_arg x)) _) _). }
  eexists. 
  eapply (mtype_chosen Bd (S (S n)) E H m st T name [v; x] _ f _ [PRef (v_addr v); PCopy (st_next st, 0%N)] (St (S (st_next st)) _) _ Fo) with (2 := Ts) (3 := Ng).
  - rewrite (resolve_one _ _ _ _ _ Ts). destruct (combine _ _); [congruence|reflexivity..].
  - cbn [f_args f pass_all]. rewrite pass_cref by (auto using pb_valid). cbn [bind]. rewrite Ep. reflexivity.
  - cbn [st_log]. exact (ctors_index m st code' q x p Rx Q).
Qed.
(* no other type is taken for T *)
Lemma pb_mixed name ret code v x U : function H T name = Ok [Fn name ret [Arg T LValue true; Arg T Copy false] code] -> a_type ret <> h_value H ->
  v_type v = T -> v_type x = U -> valid H U -> U <> T -> U <> h_value H -> ~ has_user_conversion H U T -> ~ Subtype H U T ->
  mtype_call Bd n E H m st T name [v; x] = Abort.
Proof.
  intros Fo Rv Tv Tx VU NU NUv NC NS. pose proof (arg_of v T Tv) as Ea. pose proof (arg_of x U Tx) as Ex. eapply mtype_none; [exact Fo|].
  assert (Ts : test_sig H (Fn name ret [Arg T LValue true; Arg T Copy false] code) (ret_value H) (map v_arg [v; x]) = Ok MNone).
  { cbn [map]. assert (G2 : isConvertibleTo H (v_arg x) (Arg T Copy false) = Ok MNone).
    { rewrite Ex. apply isConvertibleTo_iff_Grade; auto; [apply pb_valid|]. apply G_illegal.
      - intro Q. injection Q as Q _ _. now apply NU.
      - unfold one_is_value. cbn. intuition.
      - exact NC.
      - cbn. intros (_ & Q). now apply NS. }
    assert (G1 : isConvertibleTo H (v_arg v) (Arg T LValue true) = Ok (same_grade (v_arg v) (Arg T LValue true))) by (rewrite Ea; apply pb_grade).
    rewrite (test_two H name ret code _ _ _ _ _ _ NV Rv G1 G2).
    now destruct (same_grade _ _). }
  now rewrite (resolve_one _ _ _ _ _ Ts).
Qed.
End Shapes.
End Plumbed.
