(* PropPlain.v - C72: reflected numbers, strings and plain classes are values.
   Statements use mtype_call of ModelPtr, plain_body of ModelPlain and the
   specification of SpecPlain. *)
From Coq Require String.
Import String.StringSyntax.
From Coq Require Import Relation_Operators.
From Verif Require Import Base ModelCore SpecCore ProofCore ProofMatch ExCore ProofCore2 ModelValue SpecValue ProofValue ModelPlumb SpecPlumb ProofPlumb ProofPlumb2 ProofPlumb3 ProofPlumb4
  PropValue PropPlumb ModelCont SpecCont ProofCont ProofCont2 PropCont ModelPtr SpecPtr ProofPtr ProofPtr2 ModelPlain SpecPlain ProofPlain ProofPlain2.

(* reflectAllocPlumbing is accepted on top of reflectPlumbing, whatever the class can do *)
Theorem c57_alloc_plumbing : forall H T PT id k b, wf_heap H -> fresh H T id -> T <> h_value H ->
  id <> lit "operator=" -> id <> lit "new" -> valid H PT ->
  loads H T id k (plumbing id T k b ++ allocPlumbing T PT k (b + 5)).
Proof.
  intros H T PT id k b W F NVal N1 N2 VP.
  apply (loads_ext H T _ k b (allocPlumbing T PT k (b + 5)) _ eq_refl); auto.
  apply alloc_extension; auto. eapply tget_valid; eauto.
Qed.
Print Assumptions c57_alloc_plumbing.
Example c57_alloc_ex : exists H', register plumbHeap 10 (plumbing (lit "Widget") 10 move_only 50 ++ allocPlumbing 10 13 move_only 55) = Ok H' /\
  function H' 10 (lit "new") = Ok [ Fn (lit "new") (Arg 13 Copy false) [] 55; Fn (lit "new") (Arg 13 Copy false) [Arg 10 RValue false] 57 ].
Proof. eexists. split; reflexivity. Qed.

(* every call does what the operation says and touches nothing else *)
Theorem c72_call : forall E H K x T PT R nk id n m st op name args,
  plain_type E H K x T PT R nk id -> unborn m (st_next st) ->
  wants T id op name args -> plain_ok x (read m) op ->
  exists w m' st', mtype_call (plain_body K x) (S (S n)) E H m st T name args = Ok (w, m', st') /\
    unborn m' (st_next st') /\
    plain_result x T PT R m m' op w (new_of op m' w) /\
    (forall p, made K (raw_of K x) op (read m) = Some p -> read m' (new_of op m' w) = Some p) /\
    (forall c, m (fst c) <> DNone -> read m' c = after K op (read m) c) /\
    (forall y, m y <> DNone -> (forall i, ~ touched op (y, i)) -> m' y = m y).
Proof. intros E H K x T PT R nk id n m st op name args PN U A O. exact (do_plain E H K x T PT R nk id PN n m st U op name args A O). Qed.
Print Assumptions c72_call.

Lemma knows_after K x op m m' h new : (forall a p, h a = Some p -> read m a = Some p) ->
  (forall c, m (fst c) <> DNone -> read m' c = after K op (read m) c) ->
  (forall p, made K (raw_of K x) op (read m) = Some p -> read m' new = Some p) ->
  Forall (fun a => h a <> None) (reads op) ->
  forall a p, known_after K x op new h a = Some p -> read m' a = Some p.
Proof.
  intros Kn A M Rd. 
  assert (G : forall a, h a <> None -> h a = read m a) by (intros a Na; destruct (h a) eqn:Q; [symmetry; auto|congruence]).
  assert (B : forall a p, h a = Some p -> m (fst a) <> DNone) by (intros a p Q; apply read_born; rewrite (Kn _ _ Q); discriminate).
  assert (Af : forall a p, after K op h a = Some p -> read m' a = Some p).
  { intros a p Q. destruct op; cbn [after reads] in *;
      try (rewrite A by eauto; cbn [after]; now apply Kn);
      repeat match goal with F : Forall _ (_ :: _) |- _ => apply Forall_cons_iff in F as (? & F) end;
      rewrite A by (unfold put in Q; repeat match type of Q with (if same ?c ?d then _ else _) = _ => destruct (same c d) eqn:?S; [match goal with S' : same _ _ = true |- _ => apply same_spec in S' as -> end; apply read_born; rewrite <- G by assumption; assumption|] end; eauto);
      cbn [after]; rewrite <- !G by assumption; revert Q; unfold put; repeat match goal with |- context [same ?c ?d] => destruct (same c d) end; auto. }
  intros a p. unfold known_after. destruct (made K (raw_of K x) op h) as [q|] eqn:E.
  - assert (E' : made K (raw_of K x) op (read m) = Some q).
    { destruct op; cbn [made reads] in *; try discriminate; auto; apply Forall_cons_iff in Rd as (Q & _); now rewrite <- G. }
    unfold put. destruct (same a new) eqn:S0; [|apply Af]. apply same_spec in S0 as ->. intros [= <-]. now apply M.
  - apply Af.
Qed.

Lemma plain_ok_known x m h op : (forall a p, h a = Some p -> read m a = Some p) -> plain_ok x h op -> plain_ok x (read m) op.
Proof.
  intros Kn (O & Rd & S0). split; [exact O|]. split.
  - eapply Forall_impl; [|exact Rd]. cbn. intros a Na. destruct (h a) eqn:Q; [|congruence]. rewrite (Kn _ _ Q). discriminate.
  - destruct op; auto. destruct x; auto. cbn [reads] in Rd. apply Forall_cons_iff in Rd as (Na & Rd). apply Forall_cons_iff in Rd as (Nc & _).
    destruct (h a) as [p0|] eqn:Ea; [|congruence]. destruct (h x0) as [q0|] eqn:Ec; [|congruence].
    intros p q Ep Eq. rewrite (Kn _ _ Ea) in Ep. rewrite (Kn _ _ Ec) in Eq. injection Ep as <-. injection Eq as <-. auto.
Qed.

(* a client that keeps its own account of the values, updating it by the rules of the
   operations alone, is never wrong, whatever it does *)
Theorem c72_history : forall E H K x T PT R nk id w w',
  plain_type E H K x T PT R nk id -> knows w ->
  clos_refl_trans pworld (pstep E H K x T id) w w' -> knows w'.
Proof.
  intros E H K x T PT R nk id w w' PN Kw Rt. induction Rt as [w w' S0|w|w1 w2 w3 _ IH1 _ IH2]; auto. clear w w' Kw Rt || idtac.
  revert Kw. destruct S0 as [m st h op name args w m' st' n A O Ec|m st h a p Ra|m st h p]; intros (U & Kn); cbn [pw_mem pw_st pw_known] in *.
  - destruct (c72_call E H K x T PT R nk id n m st op name args PN U A (plain_ok_known x m h op Kn O)) as (w0 & m0 & st0 & Ec0 & U' & _ & Md & Af & _).
    rewrite Ec in Ec0. injection Ec0 as <- <- <-. split; cbn [pw_mem pw_st pw_known]; [exact U'|].
    apply (knows_after K x op m m' h); auto. apply O.
  - split; cbn [pw_mem pw_st pw_known]; [exact U|]. intros c q. unfold put. destruct (same c a) eqn:S0; [|apply Kn]. apply same_spec in S0 as ->. congruence.
  - split; cbn [pw_mem pw_st pw_known]; [now apply unborn_mset|]. intros c q. unfold put. destruct (same c (st_next st, 0%N)) eqn:S0.
    + apply same_spec in S0 as ->. intros [= <-]. apply read_fresh.
    + intros Q. apply Kn in Q. now apply read_mset.
Qed.
Print Assumptions c72_history.

(* types smaller than int never overflow *)
Theorem c72_small_sum : forall bits signed p q, (0 < bits <= 16)%N -> (p < 2 ^ bits)%N -> (q < 2 ^ bits)%N ->
  sum_fits (AInt bits signed) p q.
Proof. intros bits signed p q L Lp Lq. apply small_fits; auto; lia. Qed.
Print Assumptions c72_small_sum.
(* nor do unsigned ones, which wrap *)
Theorem c72_unsigned_sum : forall bits p q, (32 <= bits)%N -> (p < 2 ^ bits)%N -> (q < 2 ^ bits)%N ->
  sum_fits (AInt bits false) p q.
Proof.
  intros bits p q L Lp Lq. unfold sum_fits, sum_type. rewrite (proj2 (N.ltb_ge bits 32)) by lia.
  exists (decode bits false p), (decode bits false q). split; [|split; [|discriminate]]; apply represents_decode; auto; discriminate.
Qed.
Print Assumptions c72_unsigned_sum.

(* False: a sum that does not fit is not refused, it is undefined *)
Theorem c72_overflow_refuted : forall E H K bits T PT R nk id n m st v w p q z z',
  plain_type E H K (XNumber (AInt bits true)) T PT R nk id -> unborn m (st_next st) ->
  (32 <= bits)%N -> v_type v = T -> v_type w = T -> read m (v_addr v) = Some p -> read m (v_addr w) = Some q ->
  represents bits true p z -> represents bits true q z' -> ~ in_range bits true (z + z') ->
  mtype_call (plain_body K (XNumber (AInt bits true))) (S (S n)) E H m st T (lit "operator+") [v; w] = UB.
Proof.
  intros E H K bits T PT R nk id n m st v w p q z z' PN U Lb Tv Tw Rp Rq Rz Rz' Nr. 
  destruct (pn_T _ _ _ _ _ _ _ _ _ PN) as (T1 & T2), (pn_R _ _ _ _ _ _ _ _ _ PN) as (R1 & R2).
  destruct (pn_cpp _ _ _ _ _ _ _ _ _ PN) as (Cc & Cm & _).
  destruct (pb_call2v E H T id (p_base K) _ (pn_W _ _ _ _ _ _ _ _ _ PN) (pn_plumbed_body _ _ _ _ _ _ _ _ _ PN) (pn_assign _ _ _ _ _ _ _ _ _ PN) (pn_NV _ _ _ _ _ _ _ _ _ PN) T1 T2 Cm Cc
    (plain_body K (XNumber (AInt bits true))) n m st _ _ _ v w q (fn_plus _ _ _ _ _ _ _ _ _ PN _ eq_refl) R2 Tv Tw Rq) as (log & ->).
  unfold plain_body. rewrite sub_base. erewrite get_read by (apply read_mset; eauto). cbn [bind]. erewrite get_read by apply read_fresh. cbn [bind].
  unfold sum, promoted. rewrite (proj2 (N.ltb_ge bits 32)) by lia. rewrite (decode_represents _ _ _ _ Rz), (decode_represents _ _ _ _ Rz'). cbn [andb].
  unfold in_range in Nr. destruct (Z.leb_spec (- 2 ^ (Z.of_N bits - 1)) (z + z')), (Z.ltb_spec (z + z') (2 ^ (Z.of_N bits - 1))); cbn [andb negb]; try reflexivity. lia.
Qed.
Print Assumptions c72_overflow_refuted.

(* False: new on a number does not give a default constructed one, it may hold anything *)
Theorem c72_new_refuted : forall E H b d mv ar T PT R nk id n m st junk,
  plain_type E H (Plain b d junk mv) (XNumber ar) T PT R nk id -> unborn m (st_next st) ->
  exists w m' st' new, mtype_call (plain_body (Plain b d junk mv) (XNumber ar)) (S (S n)) E H m st T (lit "new") [] = Ok (w, m', st') /\
    owns_pointer PT m' w (Some new) /\ read m' new = Some junk.
Proof.
  intros E H b d mv ar T PT R nk id n m st junk PN U.
  destruct (c72_call E H _ _ T PT R nk id n m st PAlloc _ _ PN U (A_alloc T id)) as (w & m' & st' & Ec & _ & (Rs & _) & Md & _).
  { repeat split. constructor. }
  exists w, m', st', (new_of PAlloc m' w). split; [exact Ec|]. split; [exact Rs|]. apply Md. reflexivity.
Qed.
Print Assumptions c72_new_refuted.

(* assigning through a constant handle, or through one that gives its object away, is refused *)
Theorem c72_refused : forall E H K x T PT R nk id n m st v w,
  plain_type E H K x T PT R nk id -> v_type v = T -> v_type w = T ->
  a_ref (v_arg v) <> LValue \/ a_const (v_arg v) = true ->
  mtype_call (plain_body K x) n E H m st T (lit "operator=") [v; w] = Abort.
Proof.
  intros E H K x T PT R nk id n m st v w PN Tv Tw D. destruct (pn_T _ _ _ _ _ _ _ _ _ PN) as (T1 & T2).
  apply (pb_no_assign E H T id (p_base K) _ (pn_W _ _ _ _ _ _ _ _ _ PN) (pn_plumbed_body _ _ _ _ _ _ _ _ _ PN) (pn_assign _ _ _ _ _ _ _ _ _ PN) (pn_NV _ _ _ _ _ _ _ _ _ PN) T1 T2); auto.
Qed.
Print Assumptions c72_refused.

(* numbers of different types do not add: there are no arithmetic conversions *)
Theorem c72_mixed : forall E H K ar T PT R nk id E' K' ar' T' PT' R' nk' id' n m st v w,
  plain_type E H K (XNumber ar) T PT R nk id -> plain_type E' H K' (XNumber ar') T' PT' R' nk' id' ->
  T' <> T -> id' <> converterName id -> v_type v = T -> v_type w = T' ->
  mtype_call (plain_body K (XNumber ar)) n E H m st T (lit "operator+") [v; w] = Abort.
Proof.
  intros E H K ar T PT R nk id E' K' ar' T' PT' R' nk' id' n m st v w PN PN' NT NI Tv Tw.
  destruct (pn_T _ _ _ _ _ _ _ _ _ PN) as (T1 & T2), (pn_R _ _ _ _ _ _ _ _ _ PN) as (R1 & R2), (pn_T _ _ _ _ _ _ _ _ _ PN') as (_ & T2').
  pose proof (pn_carries _ _ _ _ _ _ _ _ _ PN') as C'. pose proof (pn_carries _ _ _ _ _ _ _ _ _ PN) as C.
  eapply (pb_mixed E H T id (p_base K) _ (pn_W _ _ _ _ _ _ _ _ _ PN) (pn_plumbed_body _ _ _ _ _ _ _ _ _ PN) (pn_NV _ _ _ _ _ _ _ _ _ PN) T2
    (plain_body K (XNumber ar)) n m st _ _ _ v w T' (fn_plus _ _ _ _ _ _ _ _ _ PN _ eq_refl) R2 Tv Tw); auto.
  - exact (pn_Tv _ _ _ _ _ _ _ _ _ PN').
  - intro U. destruct (carries_conversion H T' _ _ T C') as (tu & ret & args & code & Etu & I); auto.
    { destruct C as (t & Et & _). congruence. }
    pose proof C as (t & Et & Ei & _). assert (tu = t) as -> by congruence. rewrite Ei in I.
    rewrite (pn_rs _ _ _ _ _ _ _ _ _ PN') in I. apply in_app_or in I as [I|I].
    + apply plumbing_names in I as [I|I]; [congruence|now apply converterName_neq_assign in I].
    + unfold plain_ext, number_ext, alloc in I. destruct nk'; cbn -[lit converterName] in I; in_cases I; injection I; intros; discriminate.
  - intro S0. inversion S0 as [y Ey|y p0 z Pp|y z kk pa pb Pa Pb]; subst y; try subst z.
    + congruence.
    + destruct Pp as (u & Eu & Pu). destruct C' as (t & Et & _ & Q & _). congruence.
    + destruct Pa as (t & Et & _ & _ & Q). destruct C' as (t' & Et' & _ & _ & _ & _ & _ & Np & _). assert (t' = t) as -> by congruence.
      destruct Np as (Np & Npp); [|congruence]. unfold plain_regs, number, plumbing, alloc. destruct nk'; reflexivity.
Qed.
Print Assumptions c72_mixed.

(* ---- a concrete world: int, short, unsigned long, std::string and a class ---- *)
Definition plainTypes : list typerec :=
  [ newType (lit "void"); newType (lit "reflect::Value"); newType (lit "int"); newType (lit "short"); newType (lit "unsigned long");
    newType (lit "std::string"); newType (lit "Widget"); newType (lit "int*"); newType (lit "short*"); newType (lit "unsigned long*");
    newType (lit "std::string*"); newType (lit "Widget*") ].
Definition plainRegs : list (tptr * list reg) :=
  [ (2, number (lit "int") 2 7 2 NSigned some_caps 100); (3, number (lit "short") 3 8 2 NSigned some_caps 120);
    (4, number (lit "unsigned long") 4 9 4 NUnsigned some_caps 140); (5, stdString (lit "std::string") 5 10 4 some_caps 160);
    (6, plumbing (lit "Widget") 6 some_caps 180 ++ allocPlumbing 6 11 some_caps 185) ].
Definition plainHeap : heap :=
  Eval vm_compute in fold_left (fun H r => match register H (fst r) (snd r) with Ok H' => H' | _ => H end) plainRegs (Heap plainTypes 0 1).
Definition plainCpp : cpp := Cpp (fun _ => true) (fun _ => true) (fun _ _ => (99, 0%N)) (fun _ _ => void_value plainHeap).
Lemma plainHeap_wf : wf_heap plainHeap.
Proof. apply wf_check_ok. vm_compute. reflexivity. Qed.
Ltac plain_world := constructor;
  [ apply plainHeap_wf | apply carriesb_ok; vm_compute; reflexivity
  | cbn -[lit]; intros Q; repeat destruct Q as [Q|Q]; try discriminate; exact Q
  | split; [vm_compute; lia|]; repeat constructor; vm_compute; lia
  | split; unfold valid; vm_compute; lia | vm_compute; auto ].
Definition numK (b : nat) : plain := Plain b 0 (1234 (* anything *)) (fun p => p).
Lemma plain_int : plain_type plainCpp plainHeap (numK 100) (XNumber (AInt 32 true)) 2 7 2 NSigned (lit "int").
Proof. plain_world. Qed.
Lemma plain_short : plain_type plainCpp plainHeap (numK 120) (XNumber (AInt 16 true)) 3 8 2 NSigned (lit "short").
Proof. plain_world. Qed.
Lemma plain_ulong : plain_type plainCpp plainHeap (numK 140) (XNumber (AInt 64 false)) 4 9 4 NUnsigned (lit "unsigned long").
Proof. plain_world. Qed.
Lemma plain_string : plain_type plainCpp plainHeap (Plain 160 0 0 (fun _ => 0%N)) (XString (fun p => p)) 5 10 4 NSigned (lit "std::string").
Proof. plain_world. Qed.
Lemma plain_widget : plain_type plainCpp plainHeap (Plain 180 1 1 (fun _ => 5%N)) XClass 6 11 4 NSigned (lit "Widget").
Proof. plain_world. Qed.

(* two shorts, -1 and 5, add up to an int; the largest unsigned long wraps *)
Definition plainMem : mem := fun o => match o with 20 => DData 65535 | 21 => DData 5 | 22 => DBuf [18446744073709551615; 3]%N | 23 => DData 7 | _ => DNone end.
Definition hdl (T : tptr) (r : reftype) (c : bool) (a : addr) : value := Val (Arg T r c) a false.
Definition held_by (x : outcome (value * mem * state)) : option (argument * datum) :=
  match x with Ok (w, m', _) => Some (v_arg w, m' (fst (v_addr w))) | _ => None end.
Example c72_ex :
  held_by (mtype_call (plain_body (numK 120) (XNumber (AInt 16 true))) 2 plainCpp plainHeap plainMem (St 30 []) 3 (lit "operator+")
             [hdl 3 LValue true (20, 0%N); hdl 3 LValue false (21, 0%N)]) = Some (Arg 2 LValue false, DData 4) /\
  held_by (mtype_call (plain_body (numK 140) (XNumber (AInt 64 false))) 2 plainCpp plainHeap plainMem (St 30 []) 4 (lit "operator+")
             [hdl 4 LValue true (22, 0%N); hdl 4 LValue false (22, 1%N)]) = Some (Arg 4 LValue false, DData 2) /\
  mtype_call (plain_body (numK 100) (XNumber (AInt 32 true))) 2 plainCpp plainHeap plainMem (St 30 []) 2 (lit "operator+")
    [hdl 2 LValue true (20, 0%N); hdl 3 LValue false (21, 0%N)] = Abort /\
  represents 16 true 65535 (-1) /\ represents 16 true 5 5 /\ unborn plainMem 30 /\
  plain_ok (XNumber (AInt 16 true)) (read plainMem) (PPlus (20, 0%N) (21, 0%N)).
Proof.
  split; [vm_compute; reflexivity|]. split; [vm_compute; reflexivity|]. split; [vm_compute; reflexivity|].
  split; [unfold represents, in_range; cbn; lia|]. split; [unfold represents, in_range; cbn; lia|].
  split; [intros o L; do 30 (destruct o as [|o]; [lia|]); reflexivity|].
  split; [exact Logic.I|]. split; [repeat constructor; discriminate|].
  intros p q [= <-] [= <-]. apply c72_small_sum; lia.
Qed.
(* a Widget is made, moved into a new one on the free store, and assigned *)
Definition wK : plain := Plain 180 1 1 (fun _ => 5%N).
Example c72_ex2 : exists w1 m1 st1 w2 m2 st2,
  mtype_call (plain_body wK XClass) 2 plainCpp plainHeap plainMem (St 30 []) 6 (lit "Widget") [hdl 6 LValue true (23, 0%N)] = Ok (w1, m1, st1) /\
  mtype_call (plain_body wK XClass) 2 plainCpp plainHeap m1 st1 6 (lit "new") [hdl 6 RValue false (23, 0%N)] = Ok (w2, m2, st2) /\
  read m2 (23, 0%N) = Some 5%N /\ read m2 (v_addr w1) = Some 7%N /\ read m2 (new_of (PAllocMove (23, 0%N)) m2 w2) = Some 7%N /\
  knows (PWorld m2 st2 (known_after wK XClass (PAllocMove (23, 0%N)) (new_of (PAllocMove (23, 0%N)) m2 w2)
          (known_after wK XClass (PCopyOf (23, 0%N)) (v_addr w1) (put (fun _ => None) (23, 0%N) (Some 7%N))))).
Proof.
  assert (U : unborn plainMem 30) by (intros o L; do 30 (destruct o as [|o]; [lia|]); reflexivity).
  destruct (mtype_call (plain_body wK XClass) 2 plainCpp plainHeap plainMem (St 30 []) 6 (lit "Widget") [hdl 6 LValue true (23, 0%N)]) as [[[w1 m1] st1]| | | |] eqn:E1;
    try (vm_compute in E1; discriminate E1).
  destruct (mtype_call (plain_body wK XClass) 2 plainCpp plainHeap m1 st1 6 (lit "new") [hdl 6 RValue false (23, 0%N)]) as [[[w2 m2] st2]| | | |] eqn:E2;
    try (assert (X := E1); vm_compute in X; injection X as <- <- <-; vm_compute in E2; discriminate E2).
  exists w1, m1, st1, w2, m2, st2. split; [reflexivity|]. split; [exact E2|].
  split; [|split; [|split]].
  1-3: assert (X := E1); vm_compute in X; injection X as <- <- <-; vm_compute in E2; injection E2 as <- <- <-; vm_compute; reflexivity.
  apply (c72_history plainCpp plainHeap wK XClass 6 11 4 NSigned (lit "Widget") (PWorld plainMem (St 30 []) (put (fun _ => None) (23, 0%N) (Some 7%N))) _ plain_widget).
  - split; cbn [pw_mem pw_st pw_known st_next]; [exact U|]. intros a p. unfold put. destruct (same a (23, 0%N)) eqn:S0; [|discriminate]. apply same_spec in S0 as ->. now intros [= <-].
  - eapply rt_trans; apply rt_step.
    + apply (PS_call plainCpp plainHeap wK XClass 6 (lit "Widget") plainMem (St 30 []) _ (PCopyOf (23, 0%N)) _ _ w1 m1 st1 0 (A_copy 6 _ (hdl 6 LValue true (23, 0%N)) (23, 0%N) (conj eq_refl eq_refl) ltac:(intros (Q & _); discriminate))); [|exact E1].
      repeat split. repeat constructor. discriminate.
    + change (new_of (PCopyOf (23, 0%N)) m1 w1) with (v_addr w1).
      apply (PS_call plainCpp plainHeap wK XClass 6 (lit "Widget") m1 st1 _ (PAllocMove (23, 0%N)) _ _ w2 m2 st2 0 (A_alloc_move 6 _ (hdl 6 RValue false (23, 0%N)) (23, 0%N) (conj eq_refl eq_refl) (conj eq_refl eq_refl))); [|exact E2].
      assert (A1 : v_addr w1 <> (23, 0%N)) by (assert (X := E1); vm_compute in X; injection X as <- _ _; discriminate).
      repeat split. repeat constructor. unfold known_after. cbn [made after reads]. rewrite put_same. rewrite put_other by congruence. rewrite put_same. discriminate.
Qed.
