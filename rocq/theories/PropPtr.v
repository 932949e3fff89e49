(* PropPtr.v - C71: reflected smart pointers own, share and delete as they should.
   Statements use mtype_call, smart_body and smart_destroy of ModelPtr and the
   specification of SpecPtr. *)
From Coq Require String.
Import String.StringSyntax.
From Coq Require Import Relation_Operators.
From Verif Require Import Base ModelCore SpecCore ProofCore ProofMatch ExCore ProofCore2 ModelValue SpecValue ProofValue ModelPlumb SpecPlumb ProofPlumb ProofPlumb2 ProofPlumb3
  PropValue PropPlumb ModelCont SpecCont ProofCont ProofCont2 PropCont ModelPtr SpecPtr ProofPtr ProofPtr2 ProofPtr3 ProofPtr4.

Lemma smart_held shared m o : is_slot shared m o -> forall p, smart_at shared m o p <-> held m o = p.
Proof. intros Q p. rewrite (smart_at_share shared) by auto. now rewrite (held_share shared). Qed.

(* every call does what the operation says, deletes exactly what was let go, and
   leaves a sound set of smart pointers *)
Theorem c71_call : forall E H shared b rb T P PP B pid n m st os op name args,
  smart_type E H shared b rb T P PP B pid -> managed shared m os -> unborn m (st_next st) ->
  asked T PP (smart_name shared pid) m op name args -> op_ok shared m os op ->
  exists w m' st', mtype_call (smart_body shared b) (S (S n)) E H m st T name args = Ok (w, m', st') /\
    unborn m' (st_next st') /\
    let os' := os_after op (fst (v_addr w)) os in
    managed shared m' os' /\
    (forall o, In o os' -> smart_at shared m' o (held_after op (fst (v_addr w)) (held m) o)) /\
    op_result H T P PP B m m' op w /\ deletes_exactly shared m m' os os' (releases op).
Proof.
  intros E H shared b rb T P PP B pid n m st os op name args ST M U Q O. apply managed_kept in M.
  destruct (do_op E H shared b rb T P PP B pid ST n m st os U M op name args Q O) as (w & m' & st' & Ec & (_ & U') & _ & Ef & Hh & R).
  exists w, m', st'. split; [exact Ec|]. split; [exact U'|]. cbv zeta. pose proof (ef_kept _ _ _ _ _ _ Ef) as K'.
  split; [now apply managed_kept|]. split; [|split; [exact R|]].
  - intros o I. apply smart_held; [|auto]. exact (kp_slots _ _ _ _ K' o I).
  - apply effect_deletes; [exact (kp_slots _ _ _ _ M)|exact Ef].
Qed.
Print Assumptions c71_call.

(* Type::construct reaches the constructors the same way *)
Theorem c71_construct : forall E H shared b rb T P PP B pid n m st args,
  smart_type E H shared b rb T P PP B pid ->
  mconstruct (smart_body shared b) n E H m st T args = mtype_call (smart_body shared b) n E H m st T (smart_name shared pid) args.
Proof.
  intros E H shared b rb T P PP B pid n m st args ST. unfold mconstruct.
  destruct (sm_carries _ _ _ _ _ _ _ _ _ _ ST) as (t & -> & -> & _). reflexivity.
Qed.
Print Assumptions c71_construct.

(* the destructor takes one owner away *)
Theorem c71_destroy : forall shared m os o next,
  managed shared m os -> unborn m next -> In o os ->
  exists m', smart_destroy shared m o = Ok m' /\ unborn m' next /\
    let os' := filter (fun x => negb (Nat.eqb x o)) os in
    managed shared m' os' /\ m' o = DNone /\ (forall x, In x os' -> m' x = m x) /\
    deletes_exactly shared m m' os os' False.
Proof.
  intros shared m os o next M U I. apply managed_kept in M.
  destruct (kept_destroy shared m os o M I) as (m' & os' & Ed & -> & K' & Eo & F & D & Fr & _).
  exists m'. split; [exact Ed|]. split.
  { unfold smart_destroy in Ed. rewrite (smart_of_slot shared m o 0%N (kp_slots _ _ _ _ M o I)) in Ed. cbn [bind] in Ed.
    eapply drop_unborn; [exact Ed|]. intros y Ly. unfold mset. destruct (Nat.eqb y o); auto. }
  cbv zeta. split; [now apply managed_kept|]. split; [exact Eo|]. split; [exact F|].
  apply effect_deletes; [exact (kp_slots _ _ _ _ M)|]. split; [exact K'| |].
  - intros y d Ey. destruct (D y d Ey) as [(A1 & A2 & A3)|(A1 & A2)]; [left; tauto|right; tauto].
  - intros y N1 N2 N3 N4. auto.
Qed.
Print Assumptions c71_destroy.

Lemma owned_held shared m os a : (forall o, In o os -> is_slot shared m o) -> (owned shared m os a <-> exists o, In o os /\ held m o = Some a).
Proof. intros S. unfold owned. split; intros (o & I & Q); exists o; (split; [exact I|]); apply (smart_held shared m o (S o I)); exact Q. Qed.

Definition adopts (op : smartop) : option addr := match op with SFrom p => p | SResetTo _ p => p | _ => None end.
Lemma held_from op new h o os a : (forall x, match op with SCopyOf y | SMoveOf y => x = y | SAssign _ y | SMoveAssign _ y => x = y | _ => False end -> In x os) ->
  In o (os_after op new os) -> held_after op new h o = Some a -> (exists x, In x os /\ h x = Some a) \/ adopts op = Some a.
Proof.
  unfold os_after. intros X I. destruct op; cbn [makes] in I; cbn [held_after adopts]; unfold upd;
    repeat match goal with |- context [Nat.eqb ?x ?y] => destruct (Nat.eqb_spec x y) end; intro Q; try discriminate; eauto 10;
    try (left; exists o; split; [|exact Q]; destruct I as [I|I]; [congruence|exact I]).
Qed.
Lemma ok_sources shared m os op : op_ok shared m os op ->
  forall x, match op with SCopyOf y | SMoveOf y => x = y | SAssign _ y | SMoveAssign _ y => x = y | _ => False end -> In x os.
Proof. destruct op; cbn; intros O z Q; try contradiction; subst z; tauto. Qed.
Lemma ok_adopts shared m os op a : op_ok shared m os op -> adopts op = Some a -> live m a /\ ~ owned shared m os a.
Proof. destruct op; cbn; intros O Q; try discriminate; subst; [exact (O a eq_refl)|exact (proj2 O a eq_refl)]. Qed.
Lemma adopted_held op new h os a : adopts op = Some a -> (forall o p, op = SResetTo o p -> In o os) ->
  exists o, In o (os_after op new os) /\ held_after op new h o = Some a.
Proof.
  destruct op; cbn; intros Q R; try discriminate; subst.
  - exists new. split; [now left|apply upd_same].
  - exists o. split; [now apply (R o (Some a))|apply upd_same].
Qed.
Lemma in_entrusted op h mine y : In y (entrusted op h mine) -> In y mine /\ (forall o a, op = SRelease o -> h o = Some a -> y <> fst a) \/ exists a, adopts op = Some a /\ y = fst a.
Proof.
  destruct op; cbn; try (intro I; left; split; [exact I|discriminate]).
  - destruct p; [|intro I; left; split; [exact I|discriminate]]. intros [<-|I]; [right; eauto|left; split; [exact I|discriminate]].
  - destruct p; [|intro I; left; split; [exact I|discriminate]]. intros [<-|I]; [right; eauto|left; split; [exact I|discriminate]].
  - destruct (h o) as [a|] eqn:Ho.
    + intro I. apply filter_In in I as (I & N). left. split; [exact I|]. intros o' a' Q Q'. injection Q as <-. rewrite Ho in Q'. injection Q' as <-.
      intros ->. rewrite Nat.eqb_refl in N. discriminate.
    + intro I. left. split; [exact I|]. intros o' a' Q Q'. congruence.
Qed.
Lemma stays_entrusted op h mine y : In y mine -> (forall o a, op = SRelease o -> h o = Some a -> y <> fst a) -> In y (entrusted op h mine).
Proof.
  intros I N. destruct op; cbn; auto; try (destruct p; cbn; auto). destruct (h o) as [a|] eqn:Ho; auto.
  apply filter_In. split; auto. destruct (Nat.eqb_spec y (fst a)); auto. exfalso. eapply N; eauto.
Qed.

Section History.
Context (E : cpp) (H : heap) (shared : bool) (b rb : nat) (T P PP B : tptr) (pid : str).
Context (ST : smart_type E H shared b rb T P PP B pid).
Notation id := (smart_name shared pid).

Definition tracked (w : world) : Prop := accounted shared w /\ Forall (fun y => y < st_next (w_st w)) (w_mine w).
Lemma step_tracked w w' : step E H shared b T PP id w w' -> tracked w -> tracked w'.
Proof.
  intros Sp. destruct Sp as [m st os mine d D|m st os mine op name args w m' st' n Q O Ec|m st os mine o m' I Ed]; intros ((M & U & Mo & Ac) & Lt); cbn [w_mem w_st w_os w_mine] in *.
  - apply managed_kept in M. pose proof (extends_mset m (st_next st) d U) as X.
    pose proof (kept_extends shared m _ os [] M X) as K'.
    assert (Ow : forall a, owned shared (mset m (st_next st) d) os a <-> owned shared m os a).
    { intro a. rewrite (owned_holding shared) by exact (kp_slots _ _ _ _ K'). rewrite (owned_holding shared) by exact (kp_slots _ _ _ _ M).
      now rewrite (shares_extends shared m) by (auto; exact (kp_slots _ _ _ _ M)). }
    split; [split; [|split; [|split]]|]; cbn [w_mem w_st w_os w_mine st_next].
    + now apply managed_kept.
    + now apply unborn_mset.
    + intros a. rewrite Ow. apply Mo.
    + intros y I. rewrite Ow. rewrite Forall_forall in Lt. rewrite mset_other by (specialize (Lt y I); lia). auto.
    + eapply Forall_impl; [|exact Lt]. cbn. lia.
  - assert (M0 := M). apply managed_kept in M.
    destruct (do_op E H shared b rb T P PP B pid ST n m st os U M op name args Q O) as (w0 & m0 & st0 & Ec0 & (Ln & U') & Bu & Ef & Hh & _).
    rewrite Ec in Ec0. injection Ec0 as <- <- <-. set (os' := os_after op (fst (v_addr w)) os) in *.
    pose proof (ef_kept _ _ _ _ _ _ Ef) as K'. pose proof K' as M'. apply managed_kept in M'.
    assert (Sl : forall o, In o os -> is_slot shared m o) by exact (kp_slots _ _ _ _ M).
    assert (Sl' : forall o, In o os' -> is_slot shared m' o) by exact (kp_slots _ _ _ _ K').
    assert (O1 : forall a, owned shared m' os' a -> owned shared m os a \/ adopts op = Some a).
    { intros a Ha. apply owned_held in Ha; auto. destruct Ha as (o & I & Ho). rewrite Hh in Ho by exact I.
      destruct (held_from op _ _ o os a (ok_sources shared m os op O) I Ho) as [(x & Ix & Hx)|?]; auto. left. apply owned_held; eauto. }
    assert (Rl : forall o a a', op = SRelease o -> held m o = Some a -> owned shared m' os' a' -> fst a' <> fst a).
    { intros o a a' -> Ho Ha Eq. cbn [op_ok] in O. destruct O as (Sh & Io).
      assert (La : live m a) by (apply (mg_alive _ _ _ M0); apply owned_held; eauto).
      assert (La' : live m' a') by (now apply (mg_alive _ _ _ M')).
      destruct La as (Za & _), La' as (Za' & _). assert (a' = a) as -> by (destruct a, a'; cbn in *; congruence).
      apply owned_held in Ha; auto. destruct Ha as (x & Ix & Hx). unfold os', os_after in Ix. cbn [makes] in Ix.
      rewrite Hh in Hx by (unfold os', os_after; cbn [makes]; exact Ix). cbn [held_after] in Hx. unfold upd in Hx. destruct (Nat.eqb_spec x o) as [->|N]; [discriminate|].
      apply N. pose proof (mg_owners _ _ _ M0) as Ow. rewrite Sh in Ow.
      assert (S1 := Sl x Ix). assert (S2 := Sl o Io). rewrite Sh in S1, S2. apply (Ow x o a Ix Io); apply (smart_held false); auto. }
    split; [split; [exact M'|split; [exact U'|split]]|]; cbn [w_mem w_st w_os w_mine].
    + intros a Ha. destruct (O1 a Ha) as [Hb|Ad].
      * apply stays_entrusted; [now apply Mo|]. intros o a' -> Ho. eapply Rl; eauto.
      * destruct op; cbn in Ad; try discriminate; subst; cbn; auto.
    + intros y Iy. apply in_entrusted in Iy as [(Iy & Ny)|(a & Ad & ->)].
      * destruct (Ac y Iy) as [(Hy & d & Ey)|(Hy & Ey)].
        -- destruct (ef_del _ _ _ _ _ _ Ef y d Ey) as [(A1 & A2 & _ & A3)|(A1 & A2)].
           ++ right. split; [|exact A3]. now rewrite (owned_holding shared).
           ++ left. split; [|eauto]. destruct A2 as [(o & Eo)|A2].
              ** apply owned_held in Hy; auto. destruct Hy as (x & Ix & Hx). apply owned_held; auto. exists x.
                 assert (Ix' : In x os') by (unfold os', os_after; rewrite Eo; exact Ix). split; [exact Ix'|].
                 rewrite Hh by exact Ix'. rewrite Eo. cbn [held_after]. unfold upd. destruct (Nat.eqb_spec x o) as [->|N]; [|exact Hx].
                 exfalso. exact (Ny o _ Eo Hx eq_refl).
              ** rewrite (owned_holding shared) by auto. apply A2. rewrite <- (owned_holding shared); auto.
        -- right. rewrite Forall_forall in Lt. assert (Ey' : m' y = DNone) by (apply Bu; auto). split; [|exact Ey'].
           intro Hb. destruct (mg_alive _ _ _ M' _ Hb) as (_ & d & Ed). cbn in Ed. congruence.
      * left. assert (Ha : owned shared m' os' (fst a, 0%N)).
        { destruct (ok_adopts shared m os op a O Ad) as ((Z & _) & _). apply owned_held; auto.
          destruct (adopted_held op (fst (v_addr w)) (held m) os a Ad) as (o & I & Ho).
          { intros o p ->. cbn in O. tauto. }
          exists o. split; [exact I|]. rewrite Hh by exact I. destruct a; cbn in *. congruence. }
        split; [exact Ha|]. destruct (mg_alive _ _ _ M' _ Ha) as (_ & d & Ed). eauto.
    + apply Forall_forall. intros y Iy. rewrite Forall_forall in Lt. apply in_entrusted in Iy as [(Iy & _)|(a & Ad & ->)].
      * specialize (Lt y Iy). lia.
      * destruct (ok_adopts shared m os op a O Ad) as ((Z & d & Ed) & _). enough (fst a < st_next st) by lia. apply (born m _ _ U). congruence.
  - assert (M0 := M). apply managed_kept in M.
    destruct (kept_destroy shared m os o M I) as (m0 & os' & Ed0 & -> & K' & Eo & F & D & Fr & _).
    rewrite Ed in Ed0. injection Ed0 as <-. set (os' := filter (fun x => negb (Nat.eqb x o)) os) in *.
    pose proof K' as M'. apply managed_kept in M'.
    assert (Sl : forall o, In o os -> is_slot shared m o) by exact (kp_slots _ _ _ _ M).
    assert (Sl' : forall o, In o os' -> is_slot shared m' o) by exact (kp_slots _ _ _ _ K').
    unfold smart_destroy in Ed. rewrite (smart_of_slot shared m o 0%N (Sl o I)) in Ed. cbn [bind] in Ed.
    split; [split; [exact M'|split; [|split]]|]; cbn [w_mem w_st w_os w_mine]; auto.
    + eapply drop_unborn; [exact Ed|]. intros y Ly. unfold mset. destruct (Nat.eqb y o); auto.
    + intros a Ha. apply Mo. apply owned_held in Ha; auto. apply owned_held; auto. destruct Ha as (x & Ix & Hx). exists x.
      assert (Ix0 : In x os) by (now apply filter_In in Ix). split; [exact Ix0|]. rewrite <- Hx. symmetry. apply held_frame. auto.
    + intros y Iy. destruct (Ac y Iy) as [(Hy & d & Ey)|(Hy & Ey)].
      * destruct (D y d Ey) as [(A1 & A2 & A3)|(A1 & A2)].
        -- right. split; [|exact A3]. now rewrite (owned_holding shared).
        -- left. split; [|eauto]. rewrite (owned_holding shared) by auto. apply A2. rewrite <- (owned_holding shared); auto.
      * right. assert (Ey' : m' y = DNone).
        { eapply drop_buried; [exact Ed|]. unfold mset. destruct (Nat.eqb y o); auto. }
        split; [|exact Ey']. intro Hb. destruct (mg_alive _ _ _ M' _ Hb) as (_ & d & Ed'). cbn in Ed'. congruence.
Qed.
Lemma steps_tracked w w' : clos_refl_trans world (step E H shared b T PP id) w w' -> tracked w -> tracked w'.
Proof. induction 1; auto. now apply step_tracked. Qed.
End History.

Lemma managed_nil shared m : managed shared m [].
Proof.
  split; [constructor|intros ? []|intros a (o & [] & _)|]. destruct shared; [|intros ? ? ? []].
  split; [intros ? ? []|split; [intros ? ? ? []|intros ? ? ? ? ? []]].
Qed.

(* whatever the client does from there, every object it entrusted to smart pointers
   is alive exactly while one of them holds it *)
Theorem c71_history : forall E H shared b rb T P PP B pid m st w,
  smart_type E H shared b rb T P PP B pid -> unborn m (st_next st) ->
  clos_refl_trans world (step E H shared b T PP (smart_name shared pid)) (World m st [] []) w ->
  accounted shared w.
Proof.
  intros E H shared b rb T P PP B pid m st w ST U R.
  refine (proj1 (steps_tracked E H shared b rb T P PP B pid ST _ _ R _)). split; [|constructor].
  split; [apply managed_nil|]. split; [exact U|]. split; [intros a (o & [] & _)|intros y []].
Qed.
Print Assumptions c71_history.

(* nothing leaks: once every smart pointer is gone, so is all they were given *)
Theorem c71_no_leak : forall E H shared b rb T P PP B pid m st m' st' mine,
  smart_type E H shared b rb T P PP B pid -> unborn m (st_next st) ->
  clos_refl_trans world (step E H shared b T PP (smart_name shared pid)) (World m st [] []) (World m' st' [] mine) ->
  forall y, In y mine -> m' y = DNone.
Proof.
  intros E H shared b rb T P PP B pid m st m' st' mine ST U R y I.
  destruct (c71_history _ _ _ _ _ _ _ _ _ _ _ _ _ ST U R) as (_ & _ & _ & Ac). destruct (Ac y I) as [((o & [] & _) & _)|(_ & Q)]. exact Q.
Qed.
Print Assumptions c71_no_leak.

(* what is refused: copying a std::unique_ptr, assigning through a constant handle or
   one that gives its object away *)
Theorem c71_refused : forall E H shared b rb T P PP B pid n m st v x,
  smart_type E H shared b rb T P PP B pid -> v_type v = T -> v_type x = T ->
  (shared = false -> ~ gives x -> mtype_call (smart_body shared b) (S n) E H m st T (smart_name shared pid) [x] = Abort) /\
  ((a_ref (v_arg v) <> LValue \/ a_const (v_arg v) = true) \/ (shared = false /\ ~ gives x) ->
   mtype_call (smart_body shared b) (S n) E H m st T (lit "operator=") [v; x] = Abort).
Proof.
  intros E H shared b rb T P PP B pid n m st v x ST Tv Tx. split.
  - intros Sh G. now apply (call_no_copy E H shared b rb T P PP B pid ST).
  - intros Q. now apply (call_no_assign E H shared b rb T P PP B pid ST).
Qed.
Print Assumptions c71_refused.

(* raw pointers: operator bool() and operator*; the constness of the handle becomes
   that of the object *)
Theorem c71_raw : forall E H rb P PP B pid n m st v p,
  raw_type E H rb P PP B pid -> unborn m (st_next st) -> raw_handle PP m v p ->
  (exists w m' st', mtype_call (raw_body rb) (S (S n)) E H m st PP (lit "operator bool()") [v] = Ok (w, m', st') /\
     unborn m' (st_next st') /\ answers B m' w (p <> None) /\ (forall y, m y <> DNone -> m' y = m y)) /\
  (forall a, p = Some a -> exists w st', mtype_call (raw_body rb) (S (S n)) E H m st PP (lit "operator*") [v] = Ok (w, m, st') /\
     st_next st' = st_next st /\ v_type w = P /\ a_ref (v_arg w) = LValue /\ v_stored w = false /\ v_addr w = a /\
     (a_const (v_arg w) = false <-> v_arg v = Arg PP LValue false)).
Proof.
  intros E H rb P PP B pid n m st v p RT U R. split; [now apply (r_bool E H rb P PP B pid RT)|].
  intros a ->. destruct (r_star E H rb P PP B pid RT n m st v (Some a) R) as (log & c & Ec & ->).
  eexists _, _. split; [reflexivity|]. cbn. auto 10.
Qed.
Print Assumptions c71_raw.

(* a null pointer is dereferenced without a check *)
Theorem c71_null_refuted : forall E H shared b rb T P PP B pid n m st os v o x,
  smart_type E H shared b rb T P PP B pid -> managed shared m os -> In o os -> handle_to T o v -> held m o = None ->
  raw_type E H rb P PP B pid -> raw_handle PP m x None ->
  mtype_call (smart_body shared b) (S (S n)) E H m st T (lit "operator*") [v] = UB /\
  mtype_call (raw_body rb) (S (S n)) E H m st PP (lit "operator*") [x] = UB.
Proof.
  intros E H shared b rb T P PP B pid n m st os v o x ST M I Hv Hn RT R. apply managed_kept in M. split.
  - eapply (deref_null E H shared b rb T P PP B pid ST n m st os M); eauto.
  - destruct (r_star E H rb P PP B pid RT n m st x None R) as (log & c & _ & Q). exact Q.
Qed.
Print Assumptions c71_null_refuted.

(* two owners made from the same raw pointer: the second destructor deletes again *)
Theorem c71_two_owners_refuted : forall E H shared b rb T P PP B pid n m st os o a x,
  smart_type E H shared b rb T P PP B pid -> managed shared m os -> unborn m (st_next st) ->
  In o os -> held m o = Some a -> (forall o', In o' os -> held m o' = Some a -> o' = o) -> raw_handle PP m x (Some a) ->
  exists w m' st' m2, mtype_call (smart_body shared b) (S (S n)) E H m st T (smart_name shared pid) [x] = Ok (w, m', st') /\
    smart_destroy shared m' o = Ok m2 /\ smart_destroy shared m2 (fst (v_addr w)) = UB.
Proof.
  intros E H shared b rb T P PP B pid n m st os o a x ST M U I Ho Un Rx.
  destruct (call_from E H shared b rb T P PP B pid ST (smart_body shared b) n m st x (Some a) Rx) as (log0 & Ec).
  set (q := st_next st) in *. set (m0 := mset m q (DPtr (Some a))) in *.
  rewrite body_from in Ec. unfold ptr_of in Ec. cbn [fst] in Ec. unfold m0 at 1 in Ec. rewrite mset_same in Ec. cbn [bind] in Ec.
  destruct (mg_alive _ _ _ M a) as (Z & d & Ed). { apply owned_held; eauto. apply managed_kept in M. exact (kp_slots _ _ _ _ M). }
  pose proof (proj1 (managed_kept shared m os) M) as K. pose proof (kp_slots _ _ _ _ K o I) as So.
  assert (Lo : o < q) by (apply (born m _ _ U); eapply slot_alive; eauto).
  assert (La : fst a < q) by (apply (born m _ _ U); congruence).
  assert (Nao : fst a <> o). { intro Q. rewrite Q in Ed. unfold is_slot in So. rewrite So in Ed. now apply slot_not_data in Ed. }
  unfold take in Ec. destruct shared.
  - cbn [bind] in Ec. edestruct (finish_new E H (Fn (smart_name true pid) (Arg T Copy false) [Arg PP Copy false] (b + 5))) as (log & Ef);
      [reflexivity|exact (NTd E H true b rb T P PP B pid ST)|exact (NTv E H true b rb T P PP B pid ST)|exact (stT E H true b rb T P PP B pid ST)|].
    rewrite Ef in Ec. clear Ef. destruct (mg_owners _ _ _ M) as (N1 & N2 & _). unfold is_slot in So. unfold held in Ho. cbn [slot] in So. rewrite So in Ho. 
    destruct (share_of m o) as [p c]. cbn in So, Ho. subst p. destruct c as [k|]; [|specialize (N1 o _ I So); discriminate].
    pose proof (N2 o _ k I So) as Ek.
    assert (Ln : length (filter (in_block m k) os) = 1).
    { assert (F : forall l, NoDup l -> (forall y, In y l -> In y os) -> length (filter (in_block m k) l) = if in_dec Nat.eq_dec o l then 1 else 0).
      { induction l as [|y l IH]; intros Nd Sb; [reflexivity|]. apply NoDup_cons_iff in Nd as (Ny & Nd). cbn [filter].
        specialize (IH Nd (fun z Hz => Sb z (or_intror Hz))). assert (Iy : In y os) by (apply Sb; now left).
        unfold in_block at 1. destruct (Nat.eq_dec y o) as [->|Q].
        - rewrite So, Nat.eqb_refl. cbn [length]. rewrite IH. destruct (in_dec Nat.eq_dec o l); [contradiction|]. destruct (in_dec Nat.eq_dec o (o :: l)) as [|N]; [reflexivity|]. exfalso. apply N. now left.
        - assert (Ny' : match m y with DShared _ (Some k') => Nat.eqb k' k | _ => false end = false).
          { destruct (m y) as [| | | | | |p' c'|] eqn:Ey; try reflexivity. destruct c' as [k'|]; [|reflexivity]. destruct (Nat.eqb_spec k' k) as [->|]; [|reflexivity].
            exfalso. apply Q, Un; auto. pose proof (N2 y _ k Iy Ey) as Ek'. rewrite Ek in Ek'. injection Ek' as <-. unfold held. now rewrite Ey. }
          rewrite Ny', IH. destruct (in_dec Nat.eq_dec o l) as [J|J], (in_dec Nat.eq_dec o (y :: l)) as [J'|J']; auto.
          + exfalso. apply J'. now right.
          + destruct J' as [J'|J']; [congruence|contradiction]. }
      rewrite (F os (mg_distinct _ _ _ M) (fun _ h => h)). destruct (in_dec Nat.eq_dec o os); [reflexivity|contradiction]. }
    rewrite Ln in Ek.
    assert (Nka : k <> fst a) by (intro Q; rewrite Q in Ek; congruence). assert (Nko : k <> o) by (intro Q; rewrite Q in Ek; congruence).
    assert (Lk : k < q) by (apply (born m _ _ U); congruence).
    eexists _, _, _, _. split; [exact Ec|]. cbn [v_addr fst slot snd] in *. 
    unfold smart_destroy, smart_of. cbn [fst snd]. unfold m0. rewrite !mset_other by lia. rewrite So. cbn [bind]. unfold drop. cbn [snd].
    rewrite !mset_other by lia. rewrite Ek. unfold delete. rewrite Z, N.eqb_refl. rewrite !mset_other by lia. rewrite Ed. cbn [bind]. split; [reflexivity|].
    rewrite !mset_other by lia. rewrite mset_same. cbn [bind snd]. rewrite !mset_other by lia. rewrite mset_same.
    rewrite Z, N.eqb_refl. rewrite !mset_other by lia. rewrite mset_same. reflexivity.
  - cbn [bind] in Ec. edestruct (finish_new E H (Fn (smart_name false pid) (Arg T Copy false) [Arg PP Copy false] (b + 5))) as (log & Ef);
      [reflexivity|exact (NTd E H false b rb T P PP B pid ST)|exact (NTv E H false b rb T P PP B pid ST)|exact (stT E H false b rb T P PP B pid ST)|].
    rewrite Ef in Ec. clear Ef. unfold is_slot in So. unfold held in Ho. cbn [slot] in So. rewrite So in Ho. rewrite Ho in So.
    eexists _, _, _, _. split; [exact Ec|]. cbn [v_addr fst slot snd] in *.
    unfold smart_destroy, smart_of. cbn [fst snd]. unfold m0. rewrite !mset_other by lia. rewrite So. cbn [bind]. unfold drop, delete. cbn [fst].
    rewrite Z, N.eqb_refl. rewrite !mset_other by lia. rewrite Ed. split; [reflexivity|].
    rewrite !mset_other by lia. rewrite mset_same. cbn [bind fst]. rewrite Z, N.eqb_refl. rewrite !mset_other by lia. rewrite mset_same. reflexivity.
Qed.
Print Assumptions c71_two_owners_refuted.

(* ---- a concrete world: bool, int, int*, the two smart pointers to int ---- *)
Definition ptrTypes : list typerec :=
  [ newType (lit "void"); newType (lit "reflect::Value"); newType (lit "bool"); newType (lit "int"); newType (lit "int*");
    newType (lit "std::shared_ptr<int>"); newType (lit "std::unique_ptr<int>"); newType (lit "bool*") ].
Definition ptrRegs : list (tptr * list reg) :=
  [ (2, number (lit "bool") 2 7 3 NBool some_caps 100); (3, number (lit "int") 3 4 3 NSigned some_caps 120);
    (4, rawPointer (lit "int*") 4 3 2 (Caps true true true true true) 140);
    (5, sharedPtr (lit "std::shared_ptr<int>") 5 3 4 2 0 (Caps true true true true true) 160);
    (6, uniquePtr (lit "std::unique_ptr<int>") 6 3 4 2 0 (Caps true false true false true) 180) ].
Definition ptrHeap : heap :=
  Eval vm_compute in fold_left (fun H r => match register H (fst r) (snd r) with Ok H' => H' | _ => H end) ptrRegs (Heap ptrTypes 0 1).
Definition ptrCpp : cpp := Cpp (fun T => negb (Nat.eqb T 6)) (fun _ => true) (fun _ _ => (99, 0%N)) (fun _ _ => void_value ptrHeap).
Lemma ptrHeap_wf : wf_heap ptrHeap.
Proof. apply wf_check_ok. vm_compute. reflexivity. Qed.
Lemma ptrHeap_smart shared : smart_type ptrCpp ptrHeap shared (if shared then 160 else 180) 140 (if shared then 5 else 6) 3 4 2 (lit "int").
Proof.
  constructor.
  - apply ptrHeap_wf.
  - apply carriesb_ok. destruct shared; vm_compute; reflexivity.
  - apply carriesb_ok. vm_compute. reflexivity.
  - discriminate.
  - destruct shared; vm_compute; repeat split; lia.
  - split; unfold valid; vm_compute; lia.
  - destruct shared; vm_compute; auto.
Qed.
Lemma ptrHeap_raw : raw_type ptrCpp ptrHeap 140 3 4 2 (lit "int").
Proof.
  constructor.
  - apply ptrHeap_wf.
  - apply carriesb_ok. vm_compute. reflexivity.
  - discriminate.
  - vm_compute; repeat split; lia.
  - split; unfold valid; vm_compute; lia.
  - vm_compute; auto.
Qed.

(* a client makes an int and a pointer to it, a std::shared_ptr from that, a copy,
   resets the first, and lets both go *)
Definition sharedH (o : nat) : value := Val (Arg 5 LValue false) (o, 0%N) false.
Definition rawH : value := Val (Arg 4 LValue false) (21, 0%N) false.
Definition ptrMem0 : mem := fun _ => DNone.
Definition ptrMem : mem := mset (mset ptrMem0 20 (DData 7%N)) 21 (DPtr (Some (20, 0%N))).
Definition okv {A} (x : outcome A) (d : A) : A := match x with Ok a => a | _ => d end.
Definition run1 := okv (mtype_call (smart_body true 160) 2 ptrCpp ptrHeap ptrMem (St 22 []) 5 (lit "std::shared_ptr<int>") [rawH]) (rawH, ptrMem0, St 0 []).
Definition run2 := okv (mtype_call (smart_body true 160) 2 ptrCpp ptrHeap (snd (fst run1)) (snd run1) 5 (lit "std::shared_ptr<int>") [sharedH 24]) (rawH, ptrMem0, St 0 []).
Definition run3 := okv (mtype_call (smart_body true 160) 2 ptrCpp ptrHeap (snd (fst run2)) (snd run2) 5 (lit "reset") [sharedH 24]) (rawH, ptrMem0, St 0 []).
Definition run4 := okv (smart_destroy true (snd (fst run3)) 24) ptrMem0.
Definition run5 := okv (smart_destroy true run4 25) ptrMem0.
Example c71_ex :
  mtype_call (smart_body true 160) 2 ptrCpp ptrHeap ptrMem (St 22 []) 5 (lit "std::shared_ptr<int>") [rawH] = Ok run1 /\
  mtype_call (smart_body true 160) 2 ptrCpp ptrHeap (snd (fst run1)) (snd run1) 5 (lit "std::shared_ptr<int>") [sharedH 24] = Ok run2 /\
  mtype_call (smart_body true 160) 2 ptrCpp ptrHeap (snd (fst run2)) (snd run2) 5 (lit "reset") [sharedH 24] = Ok run3 /\
  smart_destroy true (snd (fst run3)) 24 = Ok run4 /\ smart_destroy true run4 25 = Ok run5 /\
  (* the int is alive until the last owner goes *)
  snd (fst run3) 20 = DData 7%N /\ run4 20 = DData 7%N /\ run5 20 = DNone /\
  clos_refl_trans world (step ptrCpp ptrHeap true 160 5 4 (lit "std::shared_ptr<int>"))
    (World ptrMem0 (St 20 []) [] []) (World run5 (snd run3) [] [20]) /\
  accounted true (World run5 (snd run3) [] [20]).
Proof.
  assert (E1 : mtype_call (smart_body true 160) 2 ptrCpp ptrHeap ptrMem (St 22 []) 5 (lit "std::shared_ptr<int>") [rawH] = Ok run1) by (vm_compute; reflexivity).
  assert (E2 : mtype_call (smart_body true 160) 2 ptrCpp ptrHeap (snd (fst run1)) (snd run1) 5 (lit "std::shared_ptr<int>") [sharedH 24] = Ok run2) by (vm_compute; reflexivity).
  assert (E3 : mtype_call (smart_body true 160) 2 ptrCpp ptrHeap (snd (fst run2)) (snd run2) 5 (lit "reset") [sharedH 24] = Ok run3) by (vm_compute; reflexivity).
  assert (E4 : smart_destroy true (snd (fst run3)) 24 = Ok run4) by (vm_compute; reflexivity).
  assert (E5 : smart_destroy true run4 25 = Ok run5) by (vm_compute; reflexivity).
  repeat (split; [assumption || (vm_compute; reflexivity)|]).
  assert (R : clos_refl_trans world (step ptrCpp ptrHeap true 160 5 4 (lit "std::shared_ptr<int>"))
    (World ptrMem0 (St 20 []) [] []) (World run5 (snd run3) [] [20])).
  { eapply rt_trans; [apply rt_step, T_object with (d := DData 7%N); eauto|]. cbn [st_next st_log].
    eapply rt_trans; [apply rt_step, T_object with (d := DPtr (Some (20, 0%N))); eauto|]. cbn [st_next st_log]. fold ptrMem.
    destruct run1 as [[w1 m1] st1] eqn:R1. assert (v_addr w1 = (24, 0%N)) as A1 by (change w1 with (fst (fst (w1, m1, st1))); rewrite <- R1; vm_compute; reflexivity).
    assert (M1 : held m1 24 = Some (20, 0%N)) by (change m1 with (snd (fst (w1, m1, st1))); rewrite <- R1; vm_compute; reflexivity).
    cbn [fst snd] in E2.
    destruct run2 as [[w2 m2] st2] eqn:R2. assert (v_addr w2 = (25, 0%N)) as A2 by (change w2 with (fst (fst (w2, m2, st2))); rewrite <- R2; vm_compute; reflexivity).
    cbn [fst snd] in E3. destruct run3 as [[w3 m3] st3]. cbn [fst snd] in E4 |- *.
    eapply rt_trans; [eapply rt_step, (T_call _ _ _ _ _ _ _ ptrMem (St 22 []) [] [] (SFrom (Some (20, 0%N))) _ [rawH] w1 m1 st1 0)|].
    { constructor. split; reflexivity. }
    { intros a Q. injection Q as <-. split; [split; [reflexivity|exists 7%N; reflexivity]|intros (o & [] & _)]. }
    { exact E1. }
    rewrite A1. unfold os_after. cbn [makes fst entrusted].
    eapply rt_trans; [eapply rt_step, (T_call _ _ _ _ _ _ _ m1 st1 [24] [20] (SCopyOf 24) _ [sharedH 24] w2 m2 st2 0)|].
    { constructor; [split; reflexivity|]. intros (Q & _). discriminate. }
    { split; [reflexivity|now left]. }
    { exact E2. }
    rewrite A2. unfold os_after. cbn [makes fst entrusted].
    eapply rt_trans; [eapply rt_step, (T_call _ _ _ _ _ _ _ m2 st2 [25; 24] [20] (SReset 24) _ [sharedH 24] w3 m3 st3 0)|].
    { constructor. split; reflexivity. }
    { now right; left. }
    { exact E3. }
    unfold os_after. cbn [makes entrusted].
    eapply rt_trans; [eapply rt_step, (T_destroy _ _ _ _ _ _ _ m3 st3 [25; 24] [20] 24); [now right; left|exact E4]|].
    cbn [filter Nat.eqb negb].
    eapply rt_step, (T_destroy _ _ _ _ _ _ _ run4 st3 [25] [20] 25); [now left|exact E5]. }
  split; [exact R|].
  apply (c71_history ptrCpp ptrHeap true 160 140 5 3 4 2 (lit "int") ptrMem0 (St 20 []) _ (ptrHeap_smart true)); [now intros y _|exact R].
Qed.
(* and the unique one meets the same hypotheses *)
Example c71_ex2 : smart_type ptrCpp ptrHeap false 180 140 6 3 4 2 (lit "int") /\ raw_type ptrCpp ptrHeap 140 3 4 2 (lit "int") /\
  managed false (mset ptrMem 30 (DPtr (Some (20, 0%N)))) [30] /\ raw_handle 4 (mset ptrMem 30 (DPtr (Some (20, 0%N)))) rawH (Some (20, 0%N)).
Proof.
  split; [exact (ptrHeap_smart false)|]. split; [exact ptrHeap_raw|]. split; [|split; reflexivity]. split.
  - repeat constructor; intros [].
  - intros o [<-|[]]. now exists (Some (20, 0%N)).
  - intros a (o & [<-|[]] & Q). cbn in Q. injection Q as <-. split; [reflexivity|now exists 7%N].
  - intros o o' a [<-|[]] [<-|[]] _ _. reflexivity.
Qed.
