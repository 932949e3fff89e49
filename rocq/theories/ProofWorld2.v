(* ProofWorld2.v - sessions on maps, and worlds of vectors (C74). *)
From Coq Require String.
Import String.StringSyntax.
From Coq Require Import Sorted Permutation.
From Verif Require Import Base ModelCore SpecCore ProofCore ProofMatch ModelValue SpecValue ProofValue ModelPlumb SpecPlumb ProofPlumb ProofPlumb2 ProofPlumb3
  ModelCont SpecCont ProofCont ProofCont2 ProofMap PropMap ModelPtr SpecPtr ProofPtr ProofPtr2 ModelPlain SpecPlain ProofPlain SpecWorld ProofWorld.

(* ----- maps: what a call does, up to order ----- *)
Lemma same_refl W : same_maps W W.
Proof. intros o. destruct (W o); auto. Qed.
Lemma same_upd W W2 o l l2 : same_maps W W2 -> Permutation l l2 -> same_maps (upd W o l) (upd W2 o l2).
Proof. intros S P y. unfold upd. destruct (Nat.eqb y o); [exact P|apply S]. Qed.
Lemma same_some W W2 o l l2 : same_maps W W2 -> W o = Some l -> W2 o = Some l2 -> Permutation l l2.
Proof. intros S Q Q2. specialize (S o). now rewrite Q, Q2 in S. Qed.
Lemma same_alive W W2 o : same_maps W W2 -> W o <> None -> W2 o <> None.
Proof. intros S. specialize (S o). destruct (W o), (W2 o); congruence. Qed.
Lemma does_perm ordered d l l2 op l' l2' r r2 : Permutation l l2 -> MapDoes ordered d l op l' r -> MapDoes ordered d l2 op l2' r2 -> Permutation l' l2'.
Proof.
  intros P D1 D2. pose proof (Permutation_map fst P) as Pk.
  inversion D1; subst; inversion D2; subst; auto.
  - exfalso. match goal with X : ~ In _ _ |- _ => apply X end. eapply Permutation_in; [exact Pk|]. apply in_map_iff. eexists (_, _). split; [reflexivity|eassumption].
  - exfalso. match goal with X : ~ In _ _ |- _ => apply X end. eapply Permutation_in; [exact (Permutation_sym Pk)|]. apply in_map_iff. eexists (_, _). split; [reflexivity|eassumption].
  - match goal with X : Permutation l' _, Y : Permutation l2' _ |- _ => rewrite X, Y end. now constructor.
Qed.
Lemma effect_perm ordered d T m W W2 c W' W2' w (F : value -> list (N * N) -> mapop -> list (N * N) -> value -> Prop) :
  (forall v l op l' w, F v l op l' w -> exists r, MapDoes ordered d l op l' r) -> same_maps W W2 ->
  Effect [] (map_member ordered d) T m W c W' w -> Effect [] F T m W2 c W2' w -> same_maps W' W2'.
Proof.
  intros HF S E1 E2. inversion E1; subst; inversion E2; subst; try contradiction.
  - now apply same_upd.
  - apply same_upd; auto. eapply same_some; eauto.
  - apply same_upd; [apply same_upd; auto|eapply same_some; eauto].
  - apply same_upd; auto. eapply same_some; eauto.
  - apply same_upd; [apply same_upd; auto|eapply same_some; eauto].
  - apply same_upd; auto. match goal with X : map_member _ _ _ _ _ _ _, Y : F _ _ _ _ _ |- _ => destruct X as (r & D1); apply HF in Y as (r2 & D2) end.
    eapply does_perm; [|exact D1|exact D2]. eapply same_some; eauto.
Qed.
Lemma call_ok_perm T X m W W2 c : same_maps W W2 -> map_call_ok T X m W c -> map_call_ok T X m W2 c.
Proof.
  intros S. destruct c as [|v|v x|v op args]; cbn; auto.
  - intros (Q & A). split; auto. eapply same_alive; eauto.
  - intros (Q1 & Q2 & A1 & A2 & Q3). repeat (split; auto); eapply same_alive; eauto.
  - intros (Q1 & Q2 & Q3 & l & Ql & At). repeat (split; auto). pose proof (S (obj v)) as Sv. rewrite Ql in Sv.
    destruct (W2 (obj v)) as [l2|]; [|contradiction]. exists l2. split; auto. intros k Ek. eapply Permutation_in; [exact (Permutation_map fst Sv)|]. auto.
Qed.
Lemma map_session ordered E H K T X V KV Z id n : map_type E H K T X V KV Z id -> cpp_copyable E T = true -> cpp_movable E T = true ->
  forall m st W m' st' W', Session (map_call_ok T X) [] (map_member ordered (k_dflt K)) T (perform mapop_name (map_body ordered K) (S n) E H T) m st W m' st' W' ->
  unborn m (st_next st) -> map_world ordered m W ->
  exists W2, same_maps W' W2 /\ map_world ordered m' W2 /\ unborn m' (st_next st').
Proof.
  intros MT Cc Cm m st W m' st' W' Se. induction Se as [m st W|m st W m1 st1 W1 c w m2 st2 W2 Se IH Ok1 Run Eff]; intros U MW.
  - exists W. auto using same_refl.
  - destruct (IH U MW) as (Wr & S1 & MW1 & U1).
    destruct (map_step_ok ordered E H K T X V KV Z id MT Cc Cm n m1 st1 Wr U1 MW1 c (call_ok_perm T X m1 W1 Wr c S1 Ok1)) as (w' & m2' & st2' & W2' & Q & D & MW2 & U2 & _).
    rewrite Run in Q. injection Q as <- <- <-. exists W2'. split; [|auto]. eapply effect_perm; [|exact S1|exact Eff|exact D].
    intros v l op l' w0 (r & Dr & _). eauto.
Qed.

(* ----- vectors ----- *)
Section Vectors.
Context (E : cpp) (H : heap) (K : cont) (T V Z : tptr) (id : str).
Context (VT : vector_type E H K T V Z id).
Notation k := (Caps true true true true true).
Notation b := (k_base K).
Notation rs := (stdVector id T V Z (h_void H) k b).
Notation Bd := (vec_body K).
Context (n : nat) (m : mem) (st : state) (W : world (list N)).
Context (U : unborn m (st_next st)) (VW : vec_world m W).
Notation call := (perform vecop_name Bd (S (S n)) E H T m st).

Definition vec_fn (m' : mem) (v : value) (l : list N) (op : vecop) (l' : list N) (w : value) : Prop :=
  exists r, VecDoes (k_dflt K) l op l' r /\ is_result H V Z m' (obj v) l' w r.
(* y is no vector of the world, no buffer of one, and not moved from by the call *)
Definition vec_done (c : ccall vecop) (w : value) (m' : mem) (st' : state) (W' : world (list N)) : Prop :=
  Effect [] (vec_fn m') T m W c W' w /\ vec_world m' W' /\ unborn m' (st_next st') /\
  (forall y, m y <> DNone -> not_of_vec m W y -> ~ pushed c y -> m' y = m y) /\
  (forall o y, W o <> None -> m o = DVec y -> m' y = DNone \/ exists o', W' o' <> None /\ m' o' = DVec y).

Lemma vec_construct nn vs : mconstruct Bd nn E H m st T vs = mtype_call Bd nn E H m st T id vs.
Proof. unfold mconstruct. destruct (vt_carries _ _ _ _ _ _ _ VT) as (t & Et & Ei & _). now rewrite Et, Ei. Qed.
Lemma valive o : W o <> None -> exists l, W o = Some l /\ contents m o l.
Proof. intros A. destruct (W o) as [l|] eqn:Q; [|congruence]. exists l. split; auto. now apply VW. Qed.
Lemma valive_old o : W o <> None -> o < st_next st /\ m o <> DNone.
Proof. intros A. destruct (valive o A) as (l & _ & buf & D & _). assert (m o <> DNone) by congruence. split; auto. now apply (born m _ _ U). Qed.
Lemma vkeep (m' : mem) o l : W o = Some l -> m' o = m o -> (forall y, m o = DVec y -> m' y = m y) -> contents m' o l.
Proof. intros Q Eo F. destruct (proj1 VW _ _ Q) as (buf & D1 & D2). exists buf. split; [congruence|]. now rewrite F. Qed.
Lemma buf_old o y : W o <> None -> m o = DVec y -> y < st_next st /\ m y <> DNone /\ W y = None.
Proof.
  intros A D. destruct (valive o A) as (l & _ & buf & D1 & D2). assert (buf = y) as -> by congruence. assert (m y <> DNone) by congruence.
  split; [now apply (born m _ _ U)|]. split; auto. destruct (W y) eqn:Q; auto. destruct (proj1 VW _ _ Q) as (z & D3 & _). congruence.
Qed.
(* no sharing afterwards *)
Lemma vapart_after (m' : mem) (W' : world (list N)) (s : nat -> nat) (f : nat) :
  (forall o1 o2, s o1 = s o2 -> o1 = o2) ->
  (forall o y, W' o <> None -> m' o = DVec y -> (W (s o) <> None /\ m (s o) = DVec y) \/ (m y = DNone /\ o = f)) ->
  forall o1 o2, W' o1 <> None -> W' o2 <> None -> o1 <> o2 -> separate m' o1 o2.
Proof.
  intros Inj P o1 o2 A1 A2 Ne. split; auto. intros y R1 R2. apply P in R1; auto. apply P in R2; auto.
  destruct R1 as [(B1 & D1)|(D1 & E1)], R2 as [(B2 & D2)|(D2 & E2)].
  - assert (Ns : s o1 <> s o2) by auto. exact (proj2 (proj2 VW _ _ B1 B2 Ns) y D1 D2).
  - destruct (buf_old _ _ B1 D1) as (_ & Q & _). congruence.
  - destruct (buf_old _ _ B2 D2) as (_ & Q & _). congruence.
  - congruence.
Qed.

Notation plumbedV := (vec_body_plumbed E H K T V Z id VT).
Lemma vW : wf_heap H. Proof. exact (vt_wf _ _ _ _ _ _ _ VT). Qed.
Lemma vNV : h_value H <> h_void H. Proof. exact (proj1 (vt_apart _ _ _ _ _ _ _ VT)). Qed.
Lemma vTd : T <> h_void H. Proof. exact (proj1 (proj2 (vt_apart _ _ _ _ _ _ _ VT))). Qed.
Lemma vTv : T <> h_value H. Proof. exact (proj1 (proj2 (proj2 (vt_apart _ _ _ _ _ _ _ VT)))). Qed.
Lemma vCm : cpp_movable E T = true. Proof. apply (vt_copies _ _ _ _ _ _ _ VT). Qed.
Lemma vst : cpp_movable E T || cpp_copyable E T = true. Proof. now rewrite vCm. Qed.
Notation assignV := (vec_id_assign E H K T V Z id VT).

Lemma vbase i : b + i - b = i. Proof. lia. Qed.
Lemma vmake_ok : exists w m' st' W', call Make = Ok (w, m', st') /\ vec_done Make w m' st' W'.
Proof.
  cbn [perform]. rewrite vec_construct.
  rewrite (pb_new E H T id b rs vW plumbedV assignV vNV vTd vTv Bd (S n) m st). unfold vec_body. rewrite vbase. cbn [bind].
  edestruct (finish_new E H (Fn id (Arg T Copy false) [] b)) as (log & Ef); [reflexivity|exact vTd|exact vTv|exact vst|]. rewrite Ef. clear Ef.
  set (nx := st_next st). set (w := Val (Arg T LValue false) (S nx, 0%N) true). set (m' := mset (mset m nx (DBuf [])) (S nx) (DVec nx)).
  exists w, m', (St (S (S nx)) log), (upd W (obj w) []). split; [reflexivity|].
  assert (Fr : forall y, y < nx -> m' y = m y) by (intros y Y; unfold m'; rewrite !mset_other by lia; reflexivity).
  assert (Ew : m' (S nx) = DVec nx) by apply mset_same.
  split; [apply Eff_make; repeat split; apply U; cbn; unfold nx; lia|]. split; [split|split].
  - intros o l Q. unfold upd in Q. cbn [obj v_addr w fst] in Q. destruct (Nat.eqb_spec o (S nx)) as [->|No].
    + injection Q as <-. exists nx. split; [exact Ew|]. unfold m'. rewrite mset_other by lia. apply mset_same.
    + assert (A : W o <> None) by congruence. apply vkeep; [exact Q|apply Fr, (valive_old o A)|]. intros y D. apply Fr. exact (proj1 (buf_old o y A D)).
  - apply (vapart_after m' _ (fun o => o) (S nx)); auto. intros o y A D. apply upd_alive in A. cbn [obj v_addr w fst] in A. destruct A as [-> |A].
    + right. split; auto. assert (y = nx) as -> by congruence. apply U. unfold nx. lia.
    + left. split; auto. rewrite Fr in D; auto. exact (proj1 (valive_old o A)).
  - intros y Y. cbn in Y. unfold m'. rewrite !mset_other by lia. apply U. unfold nx in Y. lia.
  - split; cycle 1.
    { intros o y A D. right. exists o. destruct (valive_old o A) as (L & _). rewrite Fr by exact L. split; auto. unfold upd. destruct (Nat.eqb _ _); congruence. }
    intros y Y _ _. apply Fr. now apply (born m _ _ U).
Qed.
Lemma vcopy_ok v : v_type v = T -> W (obj v) <> None -> ~ gives v ->
  exists w m' st' W', call (Copy_ v) = Ok (w, m', st') /\ vec_done (Copy_ v) w m' st' W'.
Proof.
  intros Tv Av Gv. destruct (valive _ Av) as (l & Ql & buf & D1 & D2).
  cbn [perform]. rewrite vec_construct.
  rewrite (pb_copy E H T id b rs vW plumbedV assignV vNV vTd vTv Bd (S n) m st v Tv Gv). unfold vec_body. rewrite vbase.
  unfold vec_of. fold (obj v). rewrite D1, D2. cbn [bind].
  edestruct (finish_new E H (Fn id (Arg T Copy false) [Arg T LValue true] (b + 1))) as (log & Ef); [reflexivity|exact vTd|exact vTv|exact vst|]. rewrite Ef. clear Ef.
  set (nx := st_next st). set (w := Val (Arg T LValue false) (S nx, 0%N) true). set (m' := mset (mset m nx (DBuf l)) (S nx) (DVec nx)).
  exists w, m', (St (S (S nx)) log), (upd W (obj w) l). split; [reflexivity|].
  assert (Fr : forall y, y < nx -> m' y = m y) by (intros y Y; unfold m'; rewrite !mset_other by lia; reflexivity).
  assert (Ew : m' (S nx) = DVec nx) by apply mset_same.
  split; [apply Eff_copy; auto; repeat split; apply U; cbn; unfold nx; lia|]. split; [split|split].
  - intros o l' Q. unfold upd in Q. cbn [obj v_addr w fst] in Q. destruct (Nat.eqb_spec o (S nx)) as [->|No].
    + injection Q as <-. exists nx. split; [exact Ew|]. unfold m'. rewrite mset_other by lia. apply mset_same.
    + assert (A : W o <> None) by congruence. apply vkeep; [exact Q|apply Fr, (valive_old o A)|]. intros y D. apply Fr. exact (proj1 (buf_old o y A D)).
  - apply (vapart_after m' _ (fun o => o) (S nx)); auto. intros o y A D. apply upd_alive in A. cbn [obj v_addr w fst] in A. destruct A as [-> |A].
    + right. split; auto. assert (y = nx) as -> by congruence. apply U. unfold nx. lia.
    + left. split; auto. rewrite Fr in D; auto. exact (proj1 (valive_old o A)).
  - intros y Y. cbn in Y. unfold m'. rewrite !mset_other by lia. apply U. unfold nx in Y. lia.
  - split; cycle 1.
    { intros o y A D. right. exists o. destruct (valive_old o A) as (L & _). rewrite Fr by exact L. split; auto. unfold upd. destruct (Nat.eqb _ _); congruence. }
    intros y Y _ _. apply Fr. now apply (born m _ _ U).
Qed.
Lemma vmove_ok v : v_type v = T -> W (obj v) <> None -> gives v ->
  exists w m' st' W', call (Copy_ v) = Ok (w, m', st') /\ vec_done (Copy_ v) w m' st' W'.
Proof.
  intros Tv Av Gv. destruct (valive _ Av) as (l & Ql & buf & D1 & D2).
  cbn [perform]. rewrite vec_construct.
  rewrite (pb_move E H T id b rs vW plumbedV assignV vNV vTd vTv vCm Bd (S n) m st v Tv Gv). unfold vec_body. rewrite vbase.
  unfold vec_of. fold (obj v). rewrite D1, D2. cbn [bind].
  edestruct (finish_new E H (Fn id (Arg T Copy false) [Arg T RValue false] (b + 3))) as (log & Ef); [reflexivity|exact vTd|exact vTv|exact vst|]. rewrite Ef. clear Ef.
  destruct (valive_old _ Av) as (Lv & _). destruct (buf_old _ _ Av D1) as (Lb & _ & Nb).
  set (nx := st_next st) in *. set (w := Val (Arg T LValue false) (S nx, 0%N) true).
  set (m' := mset (mset (mset m nx (DBuf [])) (obj v) (DVec nx)) (S nx) (DVec buf)).
  exists w, m', (St (S (S nx)) log), (upd (upd W (obj v) []) (obj w) l). split; [reflexivity|].
  assert (Fr : forall y, y < nx -> y <> obj v -> m' y = m y) by (intros y Y Y2; unfold m'; rewrite !mset_other by (auto; lia); reflexivity).
  assert (Ew : m' (S nx) = DVec buf) by apply mset_same.
  assert (Ev : m' (obj v) = DVec nx) by (unfold m'; rewrite mset_other by lia; apply mset_same).
  assert (En : m' nx = DBuf []) by (unfold m'; rewrite !mset_other by lia; apply mset_same).
  assert (Nbv : buf <> obj v) by (intros Q; rewrite Q in Nb; contradiction).
  split; [apply Eff_move; auto; repeat split; apply U; cbn; unfold nx; lia|]. split; [split|split].
  - intros o l' Q. unfold upd in Q. cbn [obj v_addr w fst] in Q. destruct (Nat.eqb_spec o (S nx)) as [->|No].
    + injection Q as <-. exists buf. split; [exact Ew|]. now rewrite Fr.
    + fold (obj v) in Q. destruct (Nat.eqb_spec o (obj v)) as [->|No2]; [injection Q as <-; exists nx; auto|].
      assert (A : W o <> None) by congruence. apply vkeep; [exact Q|apply Fr; auto; apply (valive_old o A)|]. intros y D. destruct (buf_old o y A D) as (Ly & _ & Ny).
      apply Fr; auto. intros Q'. rewrite Q' in Ny. contradiction.
  - apply (vapart_after m' _ (fun o => if Nat.eqb o (S nx) then obj v else if Nat.eqb o (obj v) then S nx else o) (obj v)).
    + intros o1 o2. destruct (Nat.eqb_spec o1 (S nx)), (Nat.eqb_spec o2 (S nx)), (Nat.eqb_spec o1 (obj v)), (Nat.eqb_spec o2 (obj v)); subst; intros; auto; try lia.
    + intros o y A D. apply upd_alive in A. cbn [obj v_addr w fst] in A. fold (obj v) in A. destruct (Nat.eqb_spec o (S nx)) as [->|No].
      * left. split; auto. congruence.
      * destruct A as [A|A]; [contradiction|]. apply upd_alive in A. destruct (Nat.eqb_spec o (obj v)) as [->|No2].
        { right. split; auto. assert (y = nx) as -> by congruence. apply U. unfold nx. lia. }
        destruct A as [A|A]; [contradiction|]. left. split; auto. rewrite Fr in D; auto. exact (proj1 (valive_old o A)).
  - intros y Y. cbn in Y. unfold m'. rewrite !mset_other by lia. apply U. unfold nx in Y. lia.
  - split; cycle 1.
    { intros o y A D. right. destruct (valive_old o A) as (L & _). destruct (Nat.eq_dec o (obj v)) as [->|No].
      - exists (S nx). rewrite Ew. split; [cbn [obj v_addr w fst]; now rewrite upd_same|congruence].
      - exists o. rewrite Fr by auto. split; auto. unfold upd. repeat destruct (Nat.eqb _ _); congruence. }
    intros y Y (Y1 & _) _. apply Fr; [now apply (born m _ _ U)|]. intros ->. contradiction.
Qed.
Lemma vassign_ok v x : v_arg v = Arg T LValue false -> v_type x = T -> W (obj v) <> None -> W (obj x) <> None -> ~ gives x ->
  exists w m' st' W', call (Assign v x) = Ok (w, m', st') /\ vec_done (Assign v x) w m' st' W'.
Proof.
  intros Ea Tx Av Ax Gx. assert (Tv : v_type v = T) by (unfold v_type; now rewrite Ea).
  destruct (valive _ Av) as (l0 & Q0 & old & O1 & O2). destruct (valive _ Ax) as (l & Ql & buf & D1 & D2).
  cbn [perform]. change (mcall Bd (S (S n)) E H m st v (lit "operator=") [x]) with (mtype_call Bd (S (S n)) E H m st (v_type v) (lit "operator=") [v; x]). rewrite Tv.
  rewrite (pb_assign E H T id b rs vW plumbedV assignV vNV vTd vTv Bd (S n) m st v x Ea Tx Gx). unfold vec_body. rewrite vbase.
  unfold vec_of. fold (obj v). fold (obj x). rewrite O1, O2, D1, D2. cbn [bind].
  edestruct (finish_ref E H (Fn (lit "operator=") (Arg T LValue false) [Arg T LValue false; Arg T LValue true] (b + 2))) as (log & Ef); [reflexivity|exact vTd|exact vTv|]. rewrite Ef. clear Ef.
  destruct (valive_old _ Av) as (Lv & _). destruct (buf_old _ _ Av O1) as (Lb & _ & Nb).
  set (nx := st_next st) in *. unfold rebuf. fold (obj v).
  set (w := Val (Arg T LValue false) (v_addr v) false). set (m' := mset (mset (mset m old DNone) nx (DBuf l)) (obj v) (DVec nx)).
  exists w, m', (St (S nx) log), (upd W (obj v) l). split; [reflexivity|].
  assert (Fr : forall y, y < nx -> y <> obj v -> y <> old -> m' y = m y) by (intros y Y Y2 Y3; unfold m'; rewrite !mset_other by (auto; lia); reflexivity).
  assert (Ev : m' (obj v) = DVec nx) by apply mset_same.
  assert (En : m' nx = DBuf l) by (unfold m'; rewrite mset_other by lia; apply mset_same).
  assert (Ao : forall o, W o <> None -> o <> obj v -> m' o = m o).
  { intros o A No. apply Fr; auto; [apply (valive_old o A)|]. intros Q. rewrite Q in A. contradiction. }
  split; [apply Eff_assign; auto|]. split; [split|split].
  - intros o l' Q. unfold upd in Q. destruct (Nat.eqb_spec o (obj v)) as [->|No]; [injection Q as <-; exists nx; auto|].
    assert (A : W o <> None) by congruence. apply vkeep; [exact Q|now apply Ao|]. intros y D. destruct (buf_old o y A D) as (Ly & _ & Ny).
    apply Fr; auto; [intros Q'; rewrite Q' in Ny; contradiction|]. intros ->. exact (proj2 (proj2 VW o (obj v) A Av No) old D O1).
  - apply (vapart_after m' _ (fun o => o) (obj v)); auto. intros o y A D. apply upd_alive in A. destruct (Nat.eq_dec o (obj v)) as [->|No].
    + right. split; auto. assert (y = nx) as -> by congruence. apply U. unfold nx. lia.
    + destruct A as [A|A]; [contradiction|]. left. split; auto. now rewrite Ao in D.
  - intros y Y. cbn in Y. unfold m'. rewrite !mset_other by lia. apply U. unfold nx in Y. lia.
  - split; cycle 1.
    { intros o y A D. destruct (Nat.eq_dec o (obj v)) as [->|No].
      - left. assert (y = old) as -> by congruence. unfold m'. rewrite mset_other by (intros Q; rewrite Q in Nb; contradiction). rewrite mset_other by lia. apply mset_same.
      - right. exists o. rewrite Ao by auto. split; auto. unfold upd. destruct (Nat.eqb _ _); congruence. }
    intros y Y (Y1 & Y2) _. apply Fr; [now apply (born m _ _ U)|intros ->; contradiction|]. intros ->. exact (Y2 _ Av O1).
Qed.
Lemma vmove_assign_ok v x : v_arg v = Arg T LValue false -> v_type x = T -> W (obj v) <> None -> W (obj x) <> None -> gives x -> obj x <> obj v ->
  exists w m' st' W', call (Assign v x) = Ok (w, m', st') /\ vec_done (Assign v x) w m' st' W'.
Proof.
  intros Ea Tx Av Ax Gx Ne. assert (Tv : v_type v = T) by (unfold v_type; now rewrite Ea).
  destruct (valive _ Av) as (l0 & Q0 & old & O1 & O2). destruct (valive _ Ax) as (l & Ql & buf & D1 & D2).
  cbn [perform]. change (mcall Bd (S (S n)) E H m st v (lit "operator=") [x]) with (mtype_call Bd (S (S n)) E H m st (v_type v) (lit "operator=") [v; x]). rewrite Tv.
  rewrite (pb_move_assign E H T id b rs vW plumbedV assignV vNV vTd vTv vCm Bd (S n) m st v x Ea Tx Gx). unfold vec_body. rewrite vbase.
  unfold vec_of. fold (obj v). fold (obj x). rewrite O1, O2, D1, D2. cbn [bind].
  edestruct (finish_ref E H (Fn (lit "operator=") (Arg T LValue false) [Arg T LValue false; Arg T RValue false] (b + 4))) as (log & Ef); [reflexivity|exact vTd|exact vTv|]. rewrite Ef. clear Ef.
  destruct (valive_old _ Av) as (Lv & _). destruct (valive_old _ Ax) as (Lx & _). destruct (buf_old _ _ Av O1) as (Lo & _ & Nob). destruct (buf_old _ _ Ax D1) as (Lb & _ & Nb).
  assert (Nbo : buf <> old) by (intros Q; rewrite Q in D1; exact (proj2 (proj2 VW _ _ Ax Av Ne) old D1 O1)).
  set (nx := st_next st) in *.
  set (w := Val (Arg T LValue false) (v_addr v) false). set (m' := mset (mset (mset (mset m old DNone) nx (DBuf [])) (obj x) (DVec nx)) (obj v) (DVec buf)).
  exists w, m', (St (S nx) log), (upd (upd W (obj x) []) (obj v) l). split; [reflexivity|].
  assert (Fr : forall y, y < nx -> y <> obj v -> y <> obj x -> y <> old -> m' y = m y) by (intros y Y Y2 Y3 Y4; unfold m'; rewrite !mset_other by (auto; lia); reflexivity).
  assert (Ev : m' (obj v) = DVec buf) by apply mset_same.
  assert (Ex : m' (obj x) = DVec nx) by (unfold m'; rewrite mset_other by auto; apply mset_same).
  assert (En : m' nx = DBuf []) by (unfold m'; rewrite !mset_other by lia; apply mset_same).
  assert (Ao : forall o, W o <> None -> o <> obj v -> o <> obj x -> m' o = m o).
  { intros o A No No2. apply Fr; auto; [apply (valive_old o A)|]. intros Q. rewrite Q in A. contradiction. }
  assert (Nd : forall o y, W o <> None -> o <> obj v -> m o = DVec y -> m' y = m y).
  { intros o y A No D. destruct (buf_old o y A D) as (Ly & _ & Ny). apply Fr; auto; try (intros Q'; rewrite Q' in Ny; contradiction).
    intros ->. exact (proj2 (proj2 VW o (obj v) A Av No) old D O1). }
  split; [apply Eff_move_assign; auto|]. split; [split|split].
  - intros o l' Q. unfold upd in Q. destruct (Nat.eqb_spec o (obj v)) as [->|No].
    + injection Q as <-. exists buf. split; auto. now rewrite (Nd (obj x)).
    + destruct (Nat.eqb_spec o (obj x)) as [->|No2]; [injection Q as <-; exists nx; auto|].
      assert (A : W o <> None) by congruence. apply vkeep; [exact Q|now apply Ao|]. intros y D. exact (Nd o y A No D).
  - apply (vapart_after m' _ (fun o => if Nat.eqb o (obj v) then obj x else if Nat.eqb o (obj x) then obj v else o) (obj x)).
    + intros o1 o2. destruct (Nat.eqb_spec o1 (obj v)), (Nat.eqb_spec o2 (obj v)), (Nat.eqb_spec o1 (obj x)), (Nat.eqb_spec o2 (obj x)); subst; intros; auto; congruence.
    + intros o y A D. apply upd_alive in A. destruct (Nat.eqb_spec o (obj v)) as [->|No].
      * left. split; auto. congruence.
      * destruct A as [A|A]; [contradiction|]. apply upd_alive in A. destruct (Nat.eqb_spec o (obj x)) as [->|No2].
        { right. split; auto. assert (y = nx) as -> by congruence. apply U. unfold nx. lia. }
        destruct A as [A|A]; [contradiction|]. left. split; auto. now rewrite Ao in D.
  - intros y Y. cbn in Y. unfold m'. rewrite !mset_other by lia. apply U. unfold nx in Y. lia.
  - split; cycle 1.
    { intros o y A D. destruct (Nat.eq_dec o (obj v)) as [->|No]; [|destruct (Nat.eq_dec o (obj x)) as [->|No2]; right].
      - left. assert (y = old) as -> by congruence. unfold m'. rewrite !mset_other by (intros Q; rewrite Q in Nob; contradiction). rewrite mset_other by lia. apply mset_same.
      - exists (obj v). rewrite Ev. split; [now rewrite upd_same|congruence].
      - exists o. rewrite Ao by auto. split; auto. unfold upd. repeat destruct (Nat.eqb _ _); congruence. }
    intros y Y (Y1 & Y2) _. apply Fr; [now apply (born m _ _ U)|intros ->; contradiction|intros ->; contradiction|]. intros ->. exact (Y2 _ Av O1).
Qed.
Lemma vdoes_total (l : list N) op : (forall i, op = OIndex i \/ op = OAt i -> N.to_nat i < length l) -> exists l' r, VecDoes (k_dflt K) l op l' r.
Proof.
  intros B. destruct op as [| |i|p|i|i]; eexists; eexists; try constructor.
  - apply resized_padded.
  - apply B. now left.
  - apply B. now right.
Qed.
Lemma vmember_ok v op args l : v_type v = T -> (vecop_mutates op = true -> v_arg v = Arg T LValue false) ->
  Forall2 (fun x a => holds m x (fst a) (snd a)) args (vecop_args V Z op) ->
  (forall p x, op = OPush p -> args = [x] -> gives x ->
     (forall o, W o <> None -> o <> obj x /\ m o <> DVec (obj x)) /\ isMovable H V = Ok true /\ cpp_movable E V = true) ->
  W (obj v) = Some l -> (forall i, op = OIndex i \/ op = OAt i -> N.to_nat i < length l) ->
  exists w m' st' W', call (Member v op args) = Ok (w, m', st') /\ vec_done (Member v op args) w m' st' W'.
Proof.
  intros Tv Mv Fa Gx Ql B. assert (Av : W (obj v) <> None) by congruence. destruct (vdoes_total l op B) as (l' & r & D).
  destruct (vec_step E H K T V Z id VT n m st v (obj v) l op args l' r U (proj1 VW _ _ Ql)) as (w & m' & st' & Q1 & Q2 & Q3 & Q4 & (Q5 & Q5') & Q6 & Q7); auto.
  { destruct (vecop_mutates op); split; auto. }
  { intros p x Eo Ear G. destruct (Gx p x Eo Ear G) as (O & M). split; [|exact M]. destruct (O _ Av). split; auto. }
  exists w, m', st', (upd W (obj v) l'). split; [exact Q1|].
  assert (Px : forall y, (exists p x, op = OPush p /\ In x args /\ gives x /\ y = obj x) -> W y = None /\ forall o, W o <> None -> m o <> DVec y).
  { intros y (p & x & -> & Ix & G & ->). apply forall2_one in Fa as (x' & -> & _). destruct Ix as [->|[]].
    destruct (Gx p x eq_refl eq_refl G) as (O & _). split; [destruct (W (obj x)) eqn:Q; auto; destruct (O (obj x)); congruence|]. intros o A. apply (O o A). }
  assert (Fr : forall y, m y <> DNone -> y <> obj v -> m (obj v) <> DVec y -> (forall p x, op = OPush p -> In x args -> gives x -> y <> obj x) -> m' y = m y) by (intros; apply Q7; auto).
  assert (Ao : forall o, W o <> None -> o <> obj v -> m' o = m o).
  { intros o A No. apply Fr; auto.
    - apply (valive_old o A).
    - intros Q. destruct (buf_old _ _ Av Q) as (_ & _ & N). contradiction.
    - intros p x Eo Ix G Ey. destruct (Px o) as (N & _); [exists p, x; auto|contradiction]. }
  split; [eapply Eff_member; [exact Ql|exists r; auto]|]. split; [split|split; [exact Q2|]].
  - intros o l0 Q. unfold upd in Q. destruct (Nat.eqb_spec o (obj v)) as [->|No]; [injection Q as <-; exact Q3|].
    assert (A : W o <> None) by congruence. apply vkeep; [exact Q|now apply Ao|]. intros y Dy. destruct (buf_old o y A Dy) as (_ & Yb & Ny). apply Fr; auto.
    + intros ->. contradiction.
    + exact (proj2 (proj2 VW o (obj v) A Av No) y Dy).
    + intros p x Eo Ix G Ey. destruct (Px y) as (_ & N); [exists p, x; auto|]. exact (N o A Dy).
  - apply (vapart_after m' _ (fun o => o) (obj v)); auto. intros o y A Dy. apply upd_alive in A. destruct (Nat.eq_dec o (obj v)) as [->|No].
    + destruct (Q5 y Dy) as [Q|Q]; [left; auto|right; auto].
    + destruct A as [A|A]; [contradiction|]. left. split; auto. now rewrite Ao in Dy.
  - split; cycle 1.
    { intros o y A Dy. destruct (Nat.eq_dec o (obj v)) as [->|No].
      - destruct (Q5' y Dy) as [Q|Q]; [now left|right]. exists (obj v). split; auto. now rewrite upd_same.
      - right. exists o. rewrite Ao by auto. split; auto. unfold upd. destruct (Nat.eqb _ _); congruence. }
    intros y Y (Y1 & Y2) Np. apply Fr; auto.
    + intros ->. contradiction.
    + intros p x Eo Ix G Ey. apply Np. subst op. exists x. auto.
Qed.
Lemma vec_step_ok c : vec_call_ok E H T V Z m W c -> exists w m' st' W', call c = Ok (w, m', st') /\ vec_done c w m' st' W'.
Proof.
  destruct c as [|v|v x|v op args]; cbn [vec_call_ok].
  - intros _. apply vmake_ok.
  - intros (Tv & A). destruct (gives_dec v); [now apply vmove_ok|now apply vcopy_ok].
  - intros (Ea & Tx & A1 & A2 & Ne). destruct (gives_dec x); [apply vmove_assign_ok; auto|now apply vassign_ok].
  - intros (Tv & Mv & Fa & Gx & l & Ql & B). eapply vmember_ok; eauto.
Qed.
End Vectors.

Lemma vdoes_det d l op l1 l2 r1 r2 : VecDoes d l op l1 r1 -> VecDoes d l op l2 r2 -> l1 = l2.
Proof. intros D1 D2. inversion D1; subst; inversion D2; subst; auto. eapply padded_unique; eauto. Qed.
Lemma veffect_det d T m W W2 c W' W2' w (F : value -> list N -> vecop -> list N -> value -> Prop) :
  (forall v l op l' w, F v l op l' w -> exists r, VecDoes d l op l' r) -> (forall o, W o = W2 o) ->
  Effect [] (vec_member d) T m W c W' w -> Effect [] F T m W2 c W2' w -> forall o, W' o = W2' o.
Proof.
  intros HF S E1 E2. assert (Up : forall (A B : world (list N)) x l l', (forall o, A o = B o) -> l = l' -> forall o, upd A x l o = upd B x l' o).
  { intros A B x l l' Q -> o. unfold upd. destruct (Nat.eqb o x); auto. }
  assert (So : forall o l l', W o = Some l -> W2 o = Some l' -> l = l') by (intros o l l' A B; rewrite S in A; congruence).
  inversion E1; subst; inversion E2; subst; try contradiction; try (apply Up; eauto; fail).
  apply Up; auto. match goal with X : vec_member _ _ _ _ _ _, Y : F _ _ _ _ _ |- _ => destruct X as (r & D1); apply HF in Y as (r2 & D2) end.
  match goal with A : W (obj v) = Some ?a, B : W2 (obj v) = Some ?c |- _ => assert (c = a) as -> by (symmetry; eapply So; eauto) end.
  eapply vdoes_det; eauto.
Qed.
Lemma vcall_ok_same E H T V Z m W W2 c : (forall o, W o = W2 o) -> vec_call_ok E H T V Z m W c -> vec_call_ok E H T V Z m W2 c.
Proof.
  intros S. destruct c as [|v|v x|v op args]; cbn; rewrite <- ?S; auto. intros (Q1 & Q2 & Q3 & Q4 & Q5).
  split; [exact Q1|]. split; [exact Q2|]. split; [exact Q3|]. split; [|exact Q5].
  intros p x E1 E2 G. destruct (Q4 p x E1 E2 G) as (Q & M). split; [|exact M]. intros y A. rewrite <- S in A. exact (Q y A).
Qed.
Lemma vec_world_same m W W2 : (forall o, W o = W2 o) -> vec_world m W -> vec_world m W2.
Proof. intros S (A & B). split; [intros o l; rewrite <- S; apply A|intros o1 o2; rewrite <- !S; apply B]. Qed.
Lemma vec_session E H K T V Z id n : vector_type E H K T V Z id ->
  forall m st W m' st' W', Session (vec_call_ok E H T V Z) [] (vec_member (k_dflt K)) T (perform vecop_name (vec_body K) (S (S n)) E H T) m st W m' st' W' ->
  unborn m (st_next st) -> vec_world m W -> vec_world m' W' /\ unborn m' (st_next st').
Proof.
  intros VT m st W m' st' W' Se. induction Se as [m st W|m st W m1 st1 W1 c w m2 st2 W2 Se IH Ok1 Run Eff]; intros U MW; auto.
  destruct (IH U MW) as (MW1 & U1).
  destruct (vec_step_ok E H K T V Z id VT n m1 st1 W1 U1 MW1 c Ok1) as (w' & m2' & st2' & W2' & Q & D & MW2 & U2 & _).
  rewrite Run in Q. injection Q as <- <- <-. split; [|exact U2]. eapply vec_world_same; [|exact MW2]. intros o. symmetry.
  eapply veffect_det; [|reflexivity|exact Eff|exact D]. intros v l op l' w0 (r & Dr & _). eauto.
Qed.
