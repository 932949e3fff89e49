(* PropCont.v - C65: a reflected std::vector behaves like a vector.  Statements use
   mcall of ModelCont and the specification of SpecCont. *)
From Coq Require String.
Import String.StringSyntax.
From Verif Require Import Base ModelCore SpecCore ProofCore ProofMatch ExCore ProofCore2 ModelValue SpecValue ProofValue
  ModelPlumb SpecPlumb ProofPlumb ProofPlumb2 ProofPlumb3 ProofPlumb4 PropValue PropPlumb ModelCont SpecCont ProofCont ProofCont2.

(* every operation does what it does to a list *)
Theorem c65_vector_behaves : forall E H K T V Z id n m st v o l op args l' r,
  vector_type E H K T V Z id -> unborn m (st_next st) -> contents m o l ->
  (if vecop_mutates op then mutable_handle T o v else handle_to T o v) ->
  Forall2 (fun x a => holds m x (fst a) (snd a)) args (vecop_args V Z op) ->
  (forall p x, op = OPush p -> args = [x] -> gives x -> outside m o x /\ isMovable H V = Ok true /\ cpp_movable E V = true) ->
  VecDoes (k_dflt K) l op l' r ->
  exists w m' st', mcall (vec_body K) (S (S n)) E H m st v (vecop_name op) args = Ok (w, m', st') /\
    unborn m' (st_next st') /\ contents m' o l' /\ is_result H V Z m' o l' w r /\
    (* push_back of a handle that gives its value away moves from it *)
    (forall p x, op = OPush p -> args = [x] -> gives x -> read m' (v_addr x) = Some (k_moved K)) /\
    (* nothing else changes *)
    (forall y, y <> o -> (vecop_mutates op = true -> m o <> DVec y) ->
       (forall p x, op = OPush p -> In x args -> gives x -> y <> fst (v_addr x)) -> m y <> DNone -> m' y = m y).
Proof.
  intros E H K T V Z id n m st v o l op args l' r VT U C Hv Fa Gx D.
  destruct (vec_step E H K T V Z id VT n m st v o l op args l' r U C Hv Fa Gx D) as (w & m' & st' & Q1 & Q2 & Q3 & Q4 & _ & Q6 & Q7).
  exists w, m', st'. auto 10.
Qed.
Print Assumptions c65_vector_behaves.

(* and so does any number of them *)
Theorem c65_history : forall E H K T V Z id n v o steps ops m st l l' rs,
  vector_type E H K T V Z id -> mutable_handle T o v -> unborn m (st_next st) -> contents m o l ->
  Forall2 (fun step op => fst step = vecop_name op /\
     Forall2 (fun x a => holds m x (fst a) (snd a)) (snd step) (vecop_args V Z op) /\
     Forall (fun x => outside m o x /\ ~ gives x) (snd step)) steps ops ->
  VecRuns (k_dflt K) l ops l' rs ->
  exists ws m' st', mcalls (vec_body K) (S (S n)) E H m st v steps = Ok (ws, m', st') /\
    unborn m' (st_next st') /\ contents m' o l' /\ Forall2 (still_result H Z m') ws rs /\
    (forall y, y <> o -> m o <> DVec y -> m y <> DNone -> m' y = m y).
Proof.
  intros E H K T V Z id n v o steps ops m st l l' rs VT Hv U C F R.
  destruct (vec_history E H K T V Z id VT n v o Hv ops steps m st l l' rs U C F R) as (ws & m' & st' & Q1 & Q2 & Q3 & Q4 & Q5).
  exists ws, m', st'. repeat (split; [assumption|]). intros y Y1 Y2 Y3. apply Q5; auto.
Qed.
Print Assumptions c65_history.

(* at checks its index *)
Theorem c65_at_out_of_bounds_aborts : forall E H K T V Z id n m st v o l x i,
  vector_type E H K T V Z id -> unborn m (st_next st) -> contents m o l -> handle_to T o v -> holds m x Z i ->
  length l <= N.to_nat i ->
  mcall (vec_body K) (S (S n)) E H m st v (lit "at") [x] = Abort.
Proof.
  intros E H K T V Z id n m st v o l x i VT U C Hv Hx L.
  destruct (vec_index_gen E H K T V Z id VT n m st v o l U C (lit "at") true x i 11) as (buf & m' & _ & _ & _ & _ & _ & Q); auto. discriminate.
Qed.
Print Assumptions c65_at_out_of_bounds_aborts.

(* operator[] does not: the reference it forms is past the end *)
Theorem c65_index_out_of_bounds_refuted : forall E H K T V Z id n m st v o l x i,
  vector_type E H K T V Z id -> unborn m (st_next st) -> contents m o l -> mutable_handle T o v -> holds m x Z i ->
  length l <= N.to_nat i ->
  mcall (vec_body K) (S (S n)) E H m st v (lit "operator[]") [x] = UB.
Proof.
  intros E H K T V Z id n m st v o l x i VT U C Hv Hx L.
  assert (Hh : handle_to T o v) by (destruct Hv as (Q & Q'); split; auto; unfold v_type; now rewrite Q).
  destruct (vec_index_gen E H K T V Z id VT n m st v o l U C (lit "operator[]") false x i 10) as (buf & m' & _ & _ & _ & _ & _ & Q); auto.
Qed.
Print Assumptions c65_index_out_of_bounds_refuted.

(* through a handle that is const, or that is not an lvalue, nothing that writes can
   be called; neither can operator[], which is registered for a mutable vector only *)
Theorem c65_const_view_cannot_write : forall E H K T V Z id n m st v op args,
  vector_type E H K T V Z id -> v_type v = T -> ~ (a_ref (v_arg v) = LValue /\ a_const (v_arg v) = false) ->
  vecop_mutates op = true -> Forall2 (fun x a => v_type x = fst a) args (vecop_args V Z op) ->
  mcall (vec_body K) n E H m st v (vecop_name op) args = Abort.
Proof. intros E H K T V Z id n m st v op args VT. now apply (vec_const_aborts E H K T V Z id VT). Qed.
Print Assumptions c65_const_view_cannot_write.

(* constructing from a handle copies the elements into a vector of its own; from a
   handle that gives its value away, takes them and leaves an empty vector *)
Theorem c65_copy : forall E H K T V Z id n m st v o l,
  vector_type E H K T V Z id -> unborn m (st_next st) -> contents m o l -> handle_to T o v ->
  exists w m' st', mcall (vec_body K) (S n) E H m st v id [] = Ok (w, m', st') /\ unborn m' (st_next st') /\
    new_vector T m m' w l /\ separate m' o (fst (v_addr w)) /\
    (~ gives v -> contents m' o l) /\ (gives v -> contents m' o []) /\
    (forall y, (gives v -> y <> o) -> m y <> DNone -> m' y = m y).
Proof.
  intros E H K T V Z id n m st v o l VT U C Hv. destruct (gives_dec v) as [G|G].
  - destruct (vec_move E H K T V Z id VT n m st v o l U C Hv G) as (w & m' & st' & Q1 & Q2 & Q3 & Q4 & Q5 & Q6).
    exists w, m', st'. repeat (split; [assumption|]). split; [tauto|]. split; [auto|]. intros. apply Q6; auto.
  - destruct (vec_copy E H K T V Z id VT n m st v o l U C Hv G) as (w & m' & st' & Q1 & Q2 & Q3 & Q4 & Q5 & Q6).
    exists w, m', st'. repeat (split; [assumption|]). split; [auto|]. split; [tauto|]. intros. apply Q6; auto.
Qed.
Print Assumptions c65_copy.

(* assignment *)
Theorem c65_assign : forall E H K T V Z id n m st v x o ox l lx,
  vector_type E H K T V Z id -> unborn m (st_next st) -> contents m o l -> contents m ox lx ->
  mutable_handle T o v -> handle_to T ox x -> ~ gives x -> (ox <> o -> separate m o ox) ->
  exists w m' st', mcall (vec_body K) (S n) E H m st v (lit "operator=") [x] = Ok (w, m', st') /\ unborn m' (st_next st') /\
    v_arg w = Arg T LValue false /\ v_addr w = v_addr v /\ contents m' o lx /\ contents m' ox lx /\ (ox <> o -> separate m' o ox) /\
    (forall y, y <> o -> m o <> DVec y -> m y <> DNone -> m' y = m y).
Proof. intros E H K T V Z id n m st v x o ox l lx VT. now apply (vec_assign E H K T V Z id VT n m st v x o ox l lx). Qed.
Print Assumptions c65_assign.
Theorem c65_move_assign : forall E H K T V Z id n m st v x o ox l lx,
  vector_type E H K T V Z id -> unborn m (st_next st) -> contents m o l -> contents m ox lx ->
  mutable_handle T o v -> handle_to T ox x -> gives x -> separate m o ox ->
  exists w m' st', mcall (vec_body K) (S n) E H m st v (lit "operator=") [x] = Ok (w, m', st') /\ unborn m' (st_next st') /\
    v_arg w = Arg T LValue false /\ v_addr w = v_addr v /\ contents m' o lx /\ contents m' ox [] /\ separate m' o ox /\
    (forall y, y <> o -> y <> ox -> m o <> DVec y -> m y <> DNone -> m' y = m y).
Proof. intros E H K T V Z id n m st v x o ox l lx VT. now apply (vec_move_assign E H K T V Z id VT n m st v x o ox l lx). Qed.
Print Assumptions c65_move_assign.

(* ---- a concrete world: int, size_t, a vector of ints ---- *)
Definition contTypes : list typerec :=
  [ newType (lit "void"); newType (lit "reflect::Value"); newType (lit "unsigned long"); newType (lit "int");
    newType (lit "std::vector<int>"); newType (lit "std::map<int,int>"); newType (lit "std::unordered_map<int,int>");
    newType (lit "unsigned long*"); newType (lit "int*") ].
Definition contRegs : list (tptr * list reg) :=
  [ (2, number (lit "unsigned long") 2 7 2 NUnsigned some_caps 100); (3, number (lit "int") 3 8 3 NSigned some_caps 120);
    (4, stdVector (lit "std::vector<int>") 4 3 2 0 some_caps 140);
    (5, stdMap (lit "std::map<int,int>") 5 3 3 4 2 some_caps 160);
    (6, stdMap (lit "std::unordered_map<int,int>") 6 3 3 4 2 some_caps 180) ].
Definition contHeap : heap :=
  Eval vm_compute in fold_left (fun H r => match register H (fst r) (snd r) with Ok H' => H' | _ => H end) contRegs (Heap contTypes 0 1).
Definition contCpp : cpp := Cpp (fun _ => true) (fun _ => true) (fun _ _ => (99, 0%N)) (fun _ _ => void_value contHeap).

(* what a body leaves, decided *)
Definition carriesb (H : heap) (T : tptr) (id : str) (rs : list reg) : Prop := tget H T = Some (loaded id rs).
Lemma carriesb_ok H T id rs : carriesb H T id rs -> carries H T id rs.
Proof.
  intro Q. exists (loaded id rs). split; [exact Q|]. apply loaded_spec.
Qed.
Lemma contHeap_wf : wf_heap contHeap.
Proof. apply wf_check_ok. vm_compute. reflexivity. Qed.
Ltac cnoconv := let X := fresh in intro X; apply hasConverter_spec in X; [vm_compute in X; discriminate|apply contHeap_wf|unfold valid; vm_compute; lia..].

Lemma contHeap_vector : vector_type contCpp contHeap (Cont 140 0 7) 4 3 2 (lit "std::vector<int>").
Proof.
  constructor.
  - apply contHeap_wf.
  - exists (lit "int"). reflexivity.
  - apply carriesb_ok. vm_compute. reflexivity.
  - vm_compute. repeat split; lia.
  - unfold valid. vm_compute. repeat split; lia.
  - cnoconv.
  - apply (plumbing_plumbed contHeap 2 (lit "unsigned long") some_caps 100 (number (lit "unsigned long") 2 7 2 NUnsigned some_caps 100) []);
      [apply contHeap_wf| |discriminate..|reflexivity|reflexivity|reflexivity|reflexivity].
    apply (extension_plumbed contHeap contHeap 2 _ some_caps 100 [] (number_ext 2 7 2 NUnsigned 100)).
    + apply number_extension; try discriminate; unfold valid; vm_compute; lia.
    + apply carriesb_ok. vm_compute. reflexivity.
    + apply (number_extension contHeap 2 7 2 (lit "unsigned long") NUnsigned 100 []); try discriminate; unfold valid; vm_compute; lia.
  - split; reflexivity.
Qed.

(* object 10: a vector of two ints in buffer 11; 12 and 13: sizes; 14 an int *)
Definition contMem : mem := fun o =>
  match o with 10 => DVec 11 | 11 => DBuf [5; 6]%N | 12 => DData 1%N | 13 => DData 3%N | 14 => DData 9%N | _ => DNone end.
Definition vecH : value := Val (Arg 4 LValue false) (10, 0%N) false.
Example c65_ex : exists ws m' st',
  mcalls (vec_body (Cont 140 0 7)) 2 contCpp contHeap contMem (St 20 []) vecH
    [ (lit "size", []); (lit "at", [Val (Arg 2 LValue true) (12, 0%N) false]);
      (lit "resize", [Val (Arg 2 LValue false) (13, 0%N) false]);
      (lit "push_back", [Val (Arg 3 LValue false) (14, 0%N) false]); (lit "size", []) ] = Ok (ws, m', st') /\
  contents m' 10 [5; 6; 0; 9]%N /\ vector_type contCpp contHeap (Cont 140 0 7) 4 3 2 (lit "std::vector<int>") /\
  unborn contMem 20 /\ contents contMem 10 [5; 6]%N /\ mutable_handle 4 10 vecH /\
  VecRuns 0 [5; 6]%N [OSize; OAt 1; OResize 3; OPush 9; OSize] [5; 6; 0; 9]%N
    [Number 2; Element 1 false; NoResult; NoResult; Number 4] /\
  mcall (vec_body (Cont 140 0 7)) 2 contCpp contHeap contMem (St 20 []) vecH (lit "at") [Val (Arg 2 LValue false) (13, 0%N) false] = Abort.
Proof.
  assert (R : VecRuns 0 [5; 6]%N [OSize; OAt 1; OResize 3; OPush 9; OSize] [5; 6; 0; 9]%N
    [Number 2; Element 1 false; NoResult; NoResult; Number 4]).
  { eapply VR_cons; [exact (D_size 0 [5; 6]%N)|]. eapply VR_cons; [apply (D_at 0 [5; 6]%N 1); cbn; lia|].
    eapply VR_cons; [apply (D_resize 0 [5; 6]%N 3 [5; 6; 0]%N); split; [reflexivity|]; intros [|[|[|i]]] L; try reflexivity; cbn in L; lia|].
    eapply VR_cons; [exact (D_push 0 [5; 6; 0]%N 9)|]. eapply VR_cons; [exact (D_size 0 [5; 6; 0; 9]%N)|]. constructor. }
  assert (U : unborn contMem 20). { intros o Lo. unfold contMem. do 20 (destruct o as [|o]; [lia|]). reflexivity. }
  assert (C : contents contMem 10 [5; 6]%N) by (exists 11; split; reflexivity).
  assert (Hv : mutable_handle 4 10 vecH) by (split; reflexivity).
  destruct (c65_history contCpp contHeap (Cont 140 0 7) 4 3 2 (lit "std::vector<int>") 0 vecH 10
    [ (lit "size", []); (lit "at", [Val (Arg 2 LValue true) (12, 0%N) false]);
      (lit "resize", [Val (Arg 2 LValue false) (13, 0%N) false]);
      (lit "push_back", [Val (Arg 3 LValue false) (14, 0%N) false]); (lit "size", []) ] [OSize; OAt 1; OResize 3; OPush 9; OSize]
    contMem (St 20 []) [5; 6]%N [5; 6; 0; 9]%N [Number 2; Element 1 false; NoResult; NoResult; Number 4])
    as (ws & m' & st' & Q1 & Q2 & Q3 & _); auto using contHeap_vector.
  { repeat constructor; cbn; try discriminate; intros (Q & _); discriminate. }
  exists ws, m', st'. repeat (split; [auto using contHeap_vector; fail|]).
  apply (c65_at_out_of_bounds_aborts _ _ _ _ _ _ _ 0 contMem (St 20 []) vecH 10 [5;6]%N _ 3 contHeap_vector); auto; try (split; reflexivity).
  cbn. lia.
Qed.
