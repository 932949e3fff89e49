(* PropWorld.v - C74: reflected containers are made, copied, moved and assigned like
   the values they are, any number of them at a time.  Statements use perform of
   SpecWorld, which is mconstruct (Type::construct) and mcall (Value::call). *)
From Coq Require String.
Import String.StringSyntax.
From Coq Require Import Sorted Permutation.
From Verif Require Import Base ModelCore SpecCore ProofCore ProofMatch ExCore ModelValue SpecValue ProofValue ModelPlumb SpecPlumb ProofPlumb ProofPlumb2 ProofPlumb3
  ModelCont SpecCont ProofCont ProofCont2 PropCont ProofMap PropMap ModelPtr SpecPtr ProofPtr ProofPtr2 ModelPlain SpecPlain ProofPlain SpecWorld ProofWorld ProofWorld2.

(* any allowed call returns, does to the maps what it should and to nothing else; the
   maps share no value afterwards; references into maps follow the values, and the
   values that go nowhere are released *)
Theorem c74_map_step : forall ordered E H K T X V KV Z id n m st W c,
  map_type E H K T X V KV Z id -> cpp_copyable E T = true -> cpp_movable E T = true ->
  unborn m (st_next st) -> map_world ordered m W -> map_call_ok T X m W c ->
  exists w m' st' W', perform mapop_name (map_body ordered K) (S n) E H T m st c = Ok (w, m', st') /\
    Effect [] (fun v l op l' w => exists r, MapDoes ordered (k_dflt K) l op l' r /\ is_mapres ordered V Z KV m m' (obj v) l' w r) T m W c W' w /\
    map_world ordered m' W' /\ unborn m' (st_next st') /\
    (forall o o' k a, W o <> None -> goes c w o = Some o' -> refers m o k a -> refers m' o' k a) /\
    (forall y, m y <> DNone -> not_of m W y -> m' y = m y) /\
    (forall o k a, W o <> None -> goes c w o = None -> refers m o k a -> m' (fst a) = DNone).
Proof.
  intros ordered E H K T X V KV Z id n m st W c MT Cc Cm U MW Ok1.
  destruct (map_step_ok ordered E H K T X V KV Z id MT Cc Cm n m st W U MW c Ok1) as (w & m' & st' & W' & Q & D). exists w, m', st', W'. split; [exact Q|exact D].
Qed.
Print Assumptions c74_map_step.

(* and so through any session: at its end the maps hold what the calls, each taken as
   an operation on finite maps, leave, they share nothing, and the next allowed call
   returns *)
Theorem c74_map_session : forall ordered E H K T X V KV Z id n m st W m' st' W',
  map_type E H K T X V KV Z id -> cpp_copyable E T = true -> cpp_movable E T = true ->
  unborn m (st_next st) -> map_world ordered m W ->
  Session (map_call_ok T X) [] (map_member ordered (k_dflt K)) T (perform mapop_name (map_body ordered K) (S n) E H T) m st W m' st' W' ->
  (exists W2, same_maps W' W2 /\ map_world ordered m' W2) /\ unborn m' (st_next st') /\
  (forall c, map_call_ok T X m' W' c -> exists w m2 st2, perform mapop_name (map_body ordered K) (S n) E H T m' st' c = Ok (w, m2, st2)).
Proof.
  intros ordered E H K T X V KV Z id n m st W m' st' W' MT Cc Cm U MW Se.
  destruct (map_session ordered E H K T X V KV Z id n MT Cc Cm m st W m' st' W' Se U MW) as (W2 & S2 & MW2 & U2).
  split; [eauto|]. split; [exact U2|]. intros c Ok1.
  destruct (map_step_ok ordered E H K T X V KV Z id MT Cc Cm n m' st' W2 U2 MW2 c (call_ok_perm T X m' W' W2 c S2 Ok1)) as (w & m2 & st2 & W3 & Q & _). eauto.
Qed.
Print Assumptions c74_map_session.

(* the same for vectors; push_back of a handle that gives its value away also changes
   the object it designates; no buffer leaks *)
Theorem c74_vector_step : forall E H K T V Z id n m st W c,
  vector_type E H K T V Z id -> unborn m (st_next st) -> vec_world m W -> vec_call_ok E H T V Z m W c ->
  exists w m' st' W', perform vecop_name (vec_body K) (S (S n)) E H T m st c = Ok (w, m', st') /\
    Effect [] (fun v l op l' w => exists r, VecDoes (k_dflt K) l op l' r /\ is_result H V Z m' (obj v) l' w r) T m W c W' w /\
    vec_world m' W' /\ unborn m' (st_next st') /\
    (forall y, m y <> DNone -> not_of_vec m W y -> ~ pushed c y -> m' y = m y) /\
    (forall o y, W o <> None -> m o = DVec y -> m' y = DNone \/ exists o', W' o' <> None /\ m' o' = DVec y).
Proof.
  intros E H K T V Z id n m st W c VT U VW Ok1.
  destruct (vec_step_ok E H K T V Z id VT n m st W U VW c Ok1) as (w & m' & st' & W' & Q & D). exists w, m', st', W'. split; [exact Q|exact D].
Qed.
Print Assumptions c74_vector_step.
Theorem c74_vector_session : forall E H K T V Z id n m st W m' st' W',
  vector_type E H K T V Z id -> unborn m (st_next st) -> vec_world m W ->
  Session (vec_call_ok E H T V Z) [] (vec_member (k_dflt K)) T (perform vecop_name (vec_body K) (S (S n)) E H T) m st W m' st' W' ->
  vec_world m' W' /\ unborn m' (st_next st') /\
  (forall c, vec_call_ok E H T V Z m' W' c -> exists w m2 st2, perform vecop_name (vec_body K) (S (S n)) E H T m' st' c = Ok (w, m2, st2)).
Proof.
  intros E H K T V Z id n m st W m' st' W' VT U VW Se.
  destruct (vec_session E H K T V Z id n VT m st W m' st' W' Se U VW) as (VW2 & U2). split; [exact VW2|]. split; [exact U2|].
  intros c Ok1. destruct (vec_step_ok E H K T V Z id VT n m' st' W' U2 VW2 c Ok1) as (w & m2 & st2 & W3 & Q & _). eauto.
Qed.
Print Assumptions c74_vector_session.

(* nothing can be assigned through a handle that is const or not an lvalue *)
Theorem c74_no_assign : forall ordered E H K T X V KV Z id n m st v x,
  map_type E H K T X V KV Z id -> v_type v = T -> v_type x = T -> ~ (a_ref (v_arg v) = LValue /\ a_const (v_arg v) = false) ->
  mcall (map_body ordered K) n E H m st v (lit "operator=") [x] = Abort.
Proof.
  intros ordered E H K T X V KV Z id n m st v x MT Tv Tx Nv. rewrite (mcall_type E H). rewrite Tv.
  apply (pb_no_assign E H T id (k_base K) (stdMap id T X V KV Z (Caps true true true true true) (k_base K))
    (mW E H K T X V KV Z id MT) (map_plumbed E H K T X V KV Z id MT) (map_id_assign E H K T X V KV Z id MT)
    (mNV E H K T X V KV Z id MT) (mTd E H K T X V KV Z id MT) (mTv E H K T X V KV Z id MT)); auto.
  destruct (a_ref (v_arg v)), (a_const (v_arg v)); auto; try (left; discriminate); elim Nv; auto.
Qed.
Print Assumptions c74_no_assign.
Theorem c74_vector_no_assign : forall E H K T V Z id n m st v x,
  vector_type E H K T V Z id -> v_type v = T -> v_type x = T -> ~ (a_ref (v_arg v) = LValue /\ a_const (v_arg v) = false) ->
  mcall (vec_body K) n E H m st v (lit "operator=") [x] = Abort.
Proof.
  intros E H K T V Z id n m st v x VT Tv Tx Nv. rewrite (mcall_type E H). rewrite Tv.
  apply (pb_no_assign E H T id (k_base K) (stdVector id T V Z (h_void H) (Caps true true true true true) (k_base K))
    (vW E H K T V Z id VT) (vec_body_plumbed E H K T V Z id VT) (vec_id_assign E H K T V Z id VT)
    (vNV E H K T V Z id VT) (vTd E H K T V Z id VT) (vTv E H K T V Z id VT)); auto.
  destruct (a_ref (v_arg v)), (a_const (v_arg v)); auto; try (left; discriminate); elim Nv; auto.
Qed.
Print Assumptions c74_vector_no_assign.

(* object 10 is the map 3 to 5, 8 to 6 of C66; a copy is made (11 and 12 are copied
   to 20 and 21), the key 4 is added to the copy, which is then moved into 10 *)
Definition mapW : world (list (N * N)) := fun o => if Nat.eqb o 10 then Some [(3, 5); (8, 6)]%N else None.
Definition run74 := perform mapop_name (map_body true (Cont 160 0 7)) 1 contCpp contHeap 5.
Example c74_ex : exists w1 m1 st1 w2 m2 st2 w3 m3 st3,
  run74 mapMem (St 20 []) (Copy_ mapH) = Ok (w1, m1, st1) /\
  run74 m1 st1 (Member w1 (MIndex 4) [Val (Arg 3 LValue true) (14, 0%N) false]) = Ok (w2, m2, st2) /\
  is_map true m2 10 [(3, 5); (8, 6)]%N /\ is_map true m2 (obj w1) [(3, 5); (4, 0); (8, 6)]%N /\
  run74 m2 st2 (Assign mapH (Val (Arg 5 RValue false) (v_addr w1) false)) = Ok (w3, m3, st3) /\
  is_map true m3 10 [(3, 5); (4, 0); (8, 6)]%N /\ is_map true m3 (obj w1) [] /\
  map_type contCpp contHeap (Cont 160 0 7) 5 3 3 4 2 (lit "std::map<int,int>") /\ unborn mapMem 20 /\
  map_world true mapMem mapW /\ map_call_ok 5 3 mapMem mapW (Copy_ mapH).
Proof.
  do 9 eexists. split; [vm_compute; reflexivity|]. split; [vm_compute; reflexivity|].
  split. { exists [(3%N, 11); (8%N, 12)]. repeat split; repeat constructor; cbn; try lia; intuition discriminate. }
  split. { exists [(3%N, 20); (4%N, 23); (8%N, 21)]. repeat split; repeat constructor; cbn; try lia; intuition discriminate. }
  split; [vm_compute; reflexivity|].
  split. { exists [(3%N, 20); (4%N, 23); (8%N, 21)]. repeat split; repeat constructor; cbn; try lia; intuition discriminate. }
  split. { now apply empty_map. }
  split; [exact (contHeap_map true)|]. split.
  { intros o Lo. unfold mapMem. do 20 (destruct o as [|o]; [lia|]). reflexivity. }
  split.
  { split.
    - intros o l Q. unfold mapW in Q. destruct (Nat.eqb_spec o 10) as [->|]; [|discriminate]. injection Q as <-.
      exists [(3%N, 11); (8%N, 12)]. repeat split; repeat constructor; cbn; try lia; intuition discriminate.
    - intros o1 o2 k1 k2 a A1 A2 Ne. unfold mapW in *. destruct (Nat.eqb_spec o1 10), (Nat.eqb_spec o2 10); congruence. }
  split; [reflexivity|]. discriminate.
Qed.
