(* ProofPtr3.v - what one call on a smart pointer does to ownership (used by PropPtr, C71). *)
From Coq Require String.
Import String.StringSyntax.
From Coq Require Import Permutation.
From Verif Require Import Base ModelCore SpecCore ProofCore ProofMatch ModelValue SpecValue ProofValue ModelPlumb SpecPlumb ProofPlumb ProofPlumb2 ProofPlumb3 ModelCont SpecCont ProofCont ProofCont2 ModelPtr SpecPtr ProofPtr ProofPtr2.

(* ----- bodies ----- *)
Section Bodies.
Context (sh : bool) (b next : nat) (m : mem).
Notation "'body' i qs" := (smart_body sh b (b + i) qs m next) (at level 0, i at level 0, qs at level 0).
Definition reset_ (a : addr) (m : mem) (next : nat) (s : share) : outcome (mem * nat) :=
  bind (smart_of sh m a) (fun old => bind (drop sh (mset m (fst a) (slot sh s)) old) (fun m1 => Ok (m1, next))).
Ltac go := unfold smart_body, reset_; rewrite Nat.add_comm, Nat.add_sub; destruct sh; reflexivity.
Lemma body_new : body 0 [] = Ok (m, next, RNew (slot sh (None, None))).
Proof. go. Qed.
Lemma body_move x : body 3 [PMove x] = bind (smart_of sh m x) (fun s => Ok (mset m (fst x) (slot sh (None, None)), next, RNew (slot sh s))).
Proof. go. Qed.
Lemma body_move_assign a x : body 4 [PRef a; PMove x] =
  bind (smart_of sh m x) (fun s => bind (reset_ a (mset m (fst x) (slot sh (None, None))) next s) (fun r => Ok (r, RRef a))).
Proof. go. Qed.
Lemma body_from i : body 5 [PCopy i] =
  bind (ptr_of m i) (fun p => let '(m1, next1, s) := take sh m next p in Ok (m1, next1, RNew (slot sh s))).
Proof. go. Qed.
Lemma body_get a : body 6 [PRef a] = bind (smart_of sh m a) (fun s => Ok (m, next, RNew (DPtr (fst s)))).
Proof. go. Qed.
Lemma body_bool a : body 7 [PRef a] = bind (smart_of sh m a) (fun s => Ok (m, next, RNew (truth (is_set (fst s))))).
Proof. go. Qed.
Lemma body_deref a : body 8 [PRef a] = bind (smart_of sh m a) (fun s => match fst s with Some t => Ok (m, next, RRef t) | None => UB end).
Proof. go. Qed.
Lemma body_eq a x : body 9 [PRef a; PRef x] = bind (smart_of sh m a) (fun s => bind (smart_of sh m x) (fun s' => Ok (m, next, RNew (truth (same_addr (fst s) (fst s')))))).
Proof. go. Qed.
Lemma body_reset a : smart_body sh b (b + (if sh then 10 else 12)) [PRef a] m next = bind (reset_ a m next (None, None)) (fun r => Ok (r, RVoid)).
Proof. go. Qed.
Lemma body_reset_to a i : body 11 [PRef a; PCopy i] =
  bind (ptr_of m i) (fun p => let '(m1, next1, s) := take sh m next p in bind (reset_ a m1 next1 s) (fun r => Ok (r, RVoid))).
Proof. go. Qed.
Lemma body_copy x : sh = true -> body 1 [PRef x] =
  bind (smart_of sh m x) (fun s => bind (retain m s) (fun m1 => Ok (m1, next, RNew (slot sh s)))).
Proof. intro Q. unfold smart_body, reset_; rewrite Nat.add_comm, Nat.add_sub. rewrite Q. reflexivity. Qed.
Lemma body_assign a x : sh = true -> body 2 [PRef a; PRef x] =
  bind (smart_of sh m x) (fun s => bind (retain m s) (fun m1 => bind (reset_ a m1 next s) (fun r => Ok (r, RRef a)))).
Proof. intro Q. unfold smart_body, reset_; rewrite Nat.add_comm, Nat.add_sub. rewrite Q. reflexivity. Qed.
Lemma body_release a : sh = false -> body 10 [PRef a] =
  bind (smart_of sh m a) (fun s => Ok (mset m (fst a) (slot sh (None, None)), next, RNew (DPtr (fst s)))).
Proof. intro Q. unfold smart_body, reset_; rewrite Nat.add_comm, Nat.add_sub. rewrite Q. reflexivity. Qed.
End Bodies.

Notation kept shared m os := (kept_plus shared m os []).
Record effect (shared : bool) (m : mem) (os : list nat) (m' : mem) (os' : list nat) (released : Prop) : Prop := {
  ef_kept : kept shared m' os';
  ef_del : forall y d, m y = DData d ->
    (holding (shares m os) (y, 0%N) /\ ~ holding (shares m' os') (y, 0%N) /\ ~ released /\ m' y = DNone) \/
    (m' y = DData d /\ (released \/ (holding (shares m os) (y, 0%N) -> holding (shares m' os') (y, 0%N))));
  ef_frame : forall y, ~ In y os -> (forall d, m y <> DData d) -> (forall n p, m y <> DCtl n p) -> m y <> DNone -> m' y = m y }.

Definition extends (m m' : mem) : Prop := forall y, m y <> DNone -> m' y = m y.
Lemma extends_mset m next d : unborn m next -> extends m (mset m next d).
Proof. intros U y Ny. apply mset_other. apply (born m _ _ U) in Ny. lia. Qed.
Lemma extends_trans m1 m2 m3 : extends m1 m2 -> extends m2 m3 -> extends m1 m3.
Proof. intros A B y Ny. rewrite B; [auto|]. rewrite A; auto. Qed.
Lemma slot_alive shared m o : is_slot shared m o -> m o <> DNone.
Proof. unfold is_slot. intros ->. apply slot_not_none. Qed.
Lemma kept_extends shared m m' os ex : kept_plus shared m os ex -> extends m m' -> kept_plus shared m' os ex.
Proof.
  intros [N S I] X. assert (F : forall o, In o os -> m' o = m o) by (intros o J; apply X; eapply slot_alive; eauto).
  split; auto.
  - now apply (slots_frame shared m).
  - rewrite (shares_frame m) by exact F. destruct shared.
    + apply (inv_frame true m); auto.
      * intros y Hy. apply X. destruct (iv_live _ _ _ I _ Hy) as (_ & d & Ed). cbn in Ed. congruence.
      * intros y p J. apply X. destruct I as [_ (_ & O & _)]. rewrite (O _ _ J). discriminate.
    + apply (inv_false_frame m); auto. intros y Hy. apply X. destruct (iv_live _ _ _ I _ Hy) as (_ & d & Ed). cbn in Ed. congruence.
Qed.
Lemma shares_extends shared m m' os : (forall o, In o os -> is_slot shared m o) -> extends m m' -> shares m' os = shares m os.
Proof. intros S X. apply shares_frame. intros o J. apply X. eapply slot_alive; eauto. Qed.
Lemma effect_same shared m m' os R : kept shared m os -> extends m m' -> effect shared m os m' os R.
Proof.
  intros K X. pose proof (shares_extends shared m m' os (kp_slots _ _ _ _ K) X) as Q. split.
  - eapply kept_extends; eauto.
  - intros y d Ed. right. rewrite X by congruence. split; auto. right. now rewrite Q.
  - intros y _ _ _ Ny. auto.
Qed.
Lemma effect_pre shared m m1 os m' os' R : kept shared m os -> extends m m1 -> effect shared m1 os m' os' R -> effect shared m os m' os' R.
Proof.
  intros K X [K' D F]. pose proof (shares_extends shared m m1 os (kp_slots _ _ _ _ K) X) as Q. split; auto.
  - intros y d Ed. rewrite <- Q. apply D. rewrite X; congruence.
  - intros y Ny N1 N2 N3. rewrite <- (X y N3). apply F; auto; try (intros; rewrite X by auto; auto).
Qed.
Lemma held_of shared m o s : m o = slot shared s -> held m o = fst s.
Proof. unfold held. intros ->. now destruct shared. Qed.
Lemma held_frame m m' o : m' o = m o -> held m' o = held m o.
Proof. unfold held. now intros ->. Qed.
Lemma upd_same h o p : upd h o p o = p.
Proof. unfold upd. now rewrite Nat.eqb_refl. Qed.
Lemma upd_other h o p x : x <> o -> upd h o p x = h x.
Proof. unfold upd. intro N. destruct (Nat.eqb_spec x o); congruence. Qed.
Lemma unborn_not_in shared m os next : (forall o, In o os -> is_slot shared m o) -> unborn m next -> forall o, In o os -> o < next.
Proof. intros S U o J. apply (born m _ _ U). eapply slot_alive; eauto. Qed.
Lemma unborn_keep m m' next next' : unborn m next -> next <= next' -> (forall y, next <= y -> next' <= y -> m' y = m y) -> unborn m' next'.
Proof. intros U L F y Ly. rewrite F by lia. apply U. lia. Qed.
Lemma drop_unborn shared m s m' next : drop shared m s = Ok m' -> unborn m next -> unborn m' next.
Proof.
  assert (D : forall m p m', delete m p = Ok m' -> unborn m next -> unborn m' next).
  { clear. intros m p m' Q U. unfold delete in Q. destruct p as [a|]; [|now injection Q as <-]. destruct (N.eqb (snd a) 0); [|discriminate].
    assert (G : unborn (mset m (fst a) DNone) next) by (intros y Ly; unfold mset; destruct (Nat.eqb y (fst a)); auto).
    destruct (m (fst a)); try discriminate; injection Q as <-; exact G. }
  unfold drop. destruct shared; [|apply D]. destruct (snd s) as [k|]; [|intros Q U; now injection Q as <-].
  destruct (m k) as [| | | | | | |n p] eqn:Ek; try discriminate. destruct n as [|[|n]]; [discriminate| |].
  - destruct (delete m p) eqn:Ed; try discriminate. cbn. intros Q U. injection Q as <-. pose proof (D _ _ _ Ed U) as U1.
    intros y Ly. unfold mset. destruct (Nat.eqb y k); auto.
  - intros Q U. injection Q as <-. intros y Ly. rewrite mset_other; auto. intros ->. rewrite U in Ek by auto. discriminate.
Qed.

(* below next nothing comes back *)
Definition buried (next : nat) (m m' : mem) : Prop := forall y, y < next -> m y = DNone -> m' y = DNone.
Lemma drop_buried shared m s m' y : drop shared m s = Ok m' -> m y = DNone -> m' y = DNone.
Proof.
  assert (D : forall m p m', delete m p = Ok m' -> m y = DNone -> m' y = DNone).
  { clear. intros m p m' Q U. unfold delete in Q. destruct p as [a|]; [|now injection Q as <-]. destruct (N.eqb (snd a) 0); [|discriminate].
    assert (G : mset m (fst a) DNone y = DNone) by (unfold mset; destruct (Nat.eqb y (fst a)); auto).
    destruct (m (fst a)); try discriminate; injection Q as <-; exact G. }
  unfold drop. destruct shared; [|apply D]. destruct (snd s) as [k|]; [|intros Q U; now injection Q as <-].
  destruct (m k) as [| | | | | | |n p] eqn:Ek; try discriminate. destruct n as [|[|n]]; [discriminate| |].
  - destruct (delete m p) eqn:Ed; try discriminate. cbn. intros Q U. injection Q as <-. pose proof (D _ _ _ Ed U) as U1.
    unfold mset. destruct (Nat.eqb y k); auto.
  - intros Q U. injection Q as <-. rewrite mset_other; auto. intros ->. congruence.
Qed.
Lemma buried_mset next m next' d : next <= next' -> buried next m (mset m next' d).
Proof. intros L y Ly Q. rewrite mset_other; auto. lia. Qed.
Lemma buried_same next m : buried next m m.
Proof. now intros y _ Q. Qed.
Lemma buried_alive next m o d : m o <> DNone -> buried next m (mset m o d).
Proof. intros N y _ Q. rewrite mset_other; auto. congruence. Qed.
Lemma buried_trans next m m1 m2 : buried next m m1 -> buried next m1 m2 -> buried next m m2.
Proof. intros A B y L Q. apply B, A; auto. Qed.
Lemma take_buried shared m next p m' next' s : take shared m next p = (m', next', s) -> buried next m m'.
Proof. unfold take. destruct shared; intro Q; injection Q as <- _ _; [now apply buried_mset|apply buried_same]. Qed.
Lemma buried_le next next' m m' : next <= next' -> buried next' m m' -> buried next m m'.
Proof. intros L B y Ly. apply B. lia. Qed.

Lemma moved_holding shared m os o a : In o os -> NoDup os -> 
  (holding (shares m os) a <-> holding (share_of m o :: shares (mset m o (slot shared (None, None))) os) a).
Proof.
  intros I N. destruct (pull o os I N) as (r & Pm & Nr & R1 & R2). set (m' := mset m o (slot shared (None, None))).
  assert (Er : shares m' r = shares m r) by (apply shares_frame; intros z Z; apply mset_other; now apply R1).
  assert (Eo : share_of m' o = (None, None)) by (apply (slot_share shared); [apply mset_same|auto]).
  rewrite (holding_perm _ _ a (shares_pull m o os r Pm)).
  rewrite (holding_perm (share_of m o :: shares m' os) (share_of m o :: (None, None) :: shares m r) a).
  - unfold holding. split; intros (c & [Q|J]); exists c; cbn; auto. destruct J as [J|J]; [discriminate|auto].
  - apply perm_skip. rewrite (shares_pull m' o os r Pm), Er, Eo. reflexivity.
Qed.

Lemma bind_assoc {X Y Z} (x : outcome X) (f : X -> outcome Y) (g : Y -> outcome Z) : bind (bind x f) g = bind x (fun a => bind (f a) g).
Proof. now destruct x. Qed.

Lemma if_both {X} (x : bool) (a c : X) (Q : X -> Prop) : Q a -> Q c -> Q (if x then a else c).
Proof. now destruct x. Qed.
Lemma resets_filter shared pid T P PP B vd b : fns_of (lit "reset") (smart_ext (smart_name shared pid) T P PP B b (smart_more shared T PP vd b)) =
  (if shared then [Fn (lit "reset") (Arg vd Copy false) [Arg T LValue false] (b + 10); Fn (lit "reset") (Arg vd Copy false) [Arg T LValue false; Arg PP Copy false] (b + 11)]
   else [Fn (lit "reset") (Arg vd Copy false) [Arg T LValue false; Arg PP Copy false] (b + 11); Fn (lit "reset") (Arg vd Copy false) [Arg T LValue false] (b + 12)]).
Proof. destruct shared; reflexivity. Qed.

Lemma release_filter shared pid T P PP B vd b : shared = false -> fns_of (lit "release") (smart_ext (smart_name shared pid) T P PP B b (smart_more shared T PP vd b)) =
  [Fn (lit "release") (Arg PP Copy false) [Arg T LValue false] (b + 10)].
Proof. intros ->. reflexivity. Qed.

Section Ops.
Context (E : cpp) (H : heap) (shared : bool) (b rb : nat) (T P PP B : tptr) (pid : str).
Context (ST : smart_type E H shared b rb T P PP B pid).
Notation id := (smart_name shared pid).
Context (n : nat) (m : mem) (st : state) (os : list nat).
Context (U : unborn m (st_next st)) (K : kept shared m os).
Notation call name args := (mtype_call (smart_body shared b) (S (S n)) E H m st T name args).

Definition Done (op : smartop) (r : outcome (value * mem * state)) : Prop := exists w m' st', r = Ok (w, m', st') /\
  (st_next st <= st_next st' /\ unborn m' (st_next st')) /\ buried (st_next st) m m' /\ effect shared m os m' (os_after op (fst (v_addr w)) os) (releases op) /\
  (forall o, In o (os_after op (fst (v_addr w)) os) -> held m' o = held_after op (fst (v_addr w)) (held m) o) /\
  op_result H T P PP B m m' op w.

Let Sl : forall o, In o os -> is_slot shared m o := kp_slots _ _ _ _ K.
Lemma NV : h_value H <> h_void H.
Proof. exact (proj1 (sm_apart _ _ _ _ _ _ _ _ _ _ ST)). Qed.
Lemma NTd : T <> h_void H.
Proof. exact (proj1 (proj2 (sm_apart _ _ _ _ _ _ _ _ _ _ ST))). Qed.
Lemma NTv : T <> h_value H.
Proof. exact (proj1 (proj2 (proj2 (sm_apart _ _ _ _ _ _ _ _ _ _ ST)))). Qed.
Lemma NQd : PP <> h_void H.
Proof. exact (proj1 (proj2 (proj2 (proj2 (sm_apart _ _ _ _ _ _ _ _ _ _ ST))))). Qed.
Lemma NQv : PP <> h_value H.
Proof. exact (proj1 (proj2 (proj2 (proj2 (proj2 (sm_apart _ _ _ _ _ _ _ _ _ _ ST)))))). Qed.
Lemma NPd : P <> h_void H.
Proof. exact (proj1 (proj2 (proj2 (proj2 (proj2 (proj2 (sm_apart _ _ _ _ _ _ _ _ _ _ ST))))))). Qed.
Lemma NPv : P <> h_value H.
Proof. exact (proj1 (proj2 (proj2 (proj2 (proj2 (proj2 (proj2 (sm_apart _ _ _ _ _ _ _ _ _ _ ST)))))))). Qed.
Lemma NBd : B <> h_void H.
Proof. exact (proj1 (proj2 (proj2 (proj2 (proj2 (proj2 (proj2 (proj2 (sm_apart _ _ _ _ _ _ _ _ _ _ ST))))))))). Qed.
Lemma NBv : B <> h_value H.
Proof. exact (proj2 (proj2 (proj2 (proj2 (proj2 (proj2 (proj2 (proj2 (sm_apart _ _ _ _ _ _ _ _ _ _ ST))))))))). Qed.
#[local] Hint Resolve NV NTd NTv NQd NQv NPd NPv NBd NBv : core.
Lemma stT : cpp_movable E T || cpp_copyable E T = true.
Proof. now rewrite (proj1 (sm_cpp _ _ _ _ _ _ _ _ _ _ ST)). Qed.
Lemma stQ : cpp_movable E PP || cpp_copyable E PP = true.
Proof. now rewrite (proj1 (proj2 (proj2 (sm_cpp _ _ _ _ _ _ _ _ _ _ ST)))). Qed.
Lemma stB : cpp_movable E B || cpp_copyable E B = true.
Proof. rewrite (proj2 (proj2 (proj2 (proj2 (sm_cpp _ _ _ _ _ _ _ _ _ _ ST))))). apply orb_true_r. Qed.

Lemma at_slot v o : fst (v_addr v) = o -> In o os -> smart_of shared m (v_addr v) = Ok (share_of m o).
Proof. intros <- I. rewrite (surjective_pairing (v_addr v)). now apply smart_of_slot, Sl. Qed.

(* the lookups *)
Ltac found := apply (sm_function E H shared b rb T P PP B pid ST); [apply sm_name; discriminate|discriminate|try (destruct shared; reflexivity)|discriminate].

Lemma do_get v o : handle_to T o v -> In o os -> Done (SGet o) (call (lit "get") [v]).
Proof.
  intros (Tv & Av) I. set (f := Fn (lit "get") (Arg PP Copy false) [Arg T LValue true] (b + 6)).
  erewrite (call1c E H shared b rb T P PP B pid ST) with (os := [f]) (code := b + 6); [| |now left|exact NQv|exact Tv]; [|found].
  rewrite body_get, (at_slot v o Av I). cbn [bind].
  edestruct (finish_new E H f) as (log & ->); [reflexivity|exact NQd|exact NQv|exact stQ|].
  eexists _, _, _. split; [reflexivity|]. cbn [st_next v_addr fst]. split; [split; [lia|now apply unborn_mset]|]. split; [now apply buried_mset|]. split; [|split].
  - apply effect_same; auto. now apply extends_mset.
  - intros x J. cbn [held_after]. apply held_frame. apply extends_mset; auto. eapply slot_alive, Sl, J.
  - split; [reflexivity|]. split; [reflexivity|]. split; [reflexivity|]. cbn. rewrite mset_same. now rewrite (held_share shared) by auto.
Qed.
Lemma truth_answers (x : bool) Q m' w next : (x = true <-> Q) -> w = Val (Arg B LValue false) (next, 0%N) true -> m' next = truth x -> answers B m' w Q.
Proof.
  intros X -> Em. unfold answers, owns_number. exists (if x then 1 else 0)%N. cbn. rewrite Em. unfold truth. destruct x; intuition; try discriminate.
Qed.
Lemma do_bool v o : handle_to T o v -> In o os -> Done (SBool o) (call (lit "operator bool()") [v]).
Proof.
  intros (Tv & Av) I. set (f := Fn (lit "operator bool()") (Arg B Copy false) [Arg T LValue true] (b + 7)).
  erewrite (call1c E H shared b rb T P PP B pid ST) with (os := [f]) (code := b + 7); [| |now left|exact NBv|exact Tv]; [|found].
  rewrite body_bool, (at_slot v o Av I). cbn [bind].
  edestruct (finish_new E H f) as (log & ->); [reflexivity|exact NBd|exact NBv|exact stB|].
  eexists _, _, _. split; [reflexivity|]. cbn [st_next v_addr fst]. split; [split; [lia|now apply unborn_mset]|]. split; [now apply buried_mset|]. split; [|split].
  - apply effect_same; auto. now apply extends_mset.
  - intros x J. cbn [held_after]. apply held_frame. apply extends_mset; auto. eapply slot_alive, Sl, J.
  - cbn [op_result]. eapply truth_answers; [|reflexivity|apply mset_same]. rewrite (held_share shared) by auto.
    destruct (fst (share_of m o)); cbn; intuition discriminate.
Qed.
Lemma do_deref v o : handle_to T o v -> In o os -> held m o <> None -> Done (SDeref o) (call (lit "operator*") [v]).
Proof.
  intros (Tv & Av) I Nn. set (f := Fn (lit "operator*") (Arg P LValue false) [Arg T LValue true] (b + 8)).
  erewrite (call1c E H shared b rb T P PP B pid ST) with (os := [f]) (code := b + 8); [| |now left|exact NPv|exact Tv]; [|found].
  rewrite body_deref, (at_slot v o Av I). cbn [bind]. pose proof (held_share shared m o (Sl o I)) as Hh. rewrite Hh in Nn.
  destruct (fst (share_of m o)) as [a|]; [|contradiction]. cbn [bind].
  edestruct (finish_ref E H f) as (log & ->); [reflexivity|exact NPd|exact NPv|].
  eexists _, _, _. split; [reflexivity|]. cbn [st_next v_addr fst]. split; [split; [lia|exact U]|]. split; [apply buried_same|]. split; [|split].
  - apply effect_same; auto. intros y _. reflexivity.
  - intros x J. reflexivity.
  - split; [reflexivity|]. split; [reflexivity|]. cbn. exact Hh.
Qed.
Lemma deref_null v o : handle_to T o v -> In o os -> held m o = None -> call (lit "operator*") [v] = UB.
Proof.
  intros (Tv & Av) I Nn. set (f := Fn (lit "operator*") (Arg P LValue false) [Arg T LValue true] (b + 8)).
  erewrite (call1c E H shared b rb T P PP B pid ST) with (os := [f]) (code := b + 8); [| |now left|exact NPv|exact Tv]; [|found].
  rewrite body_deref, (at_slot v o Av I). cbn [bind]. pose proof (held_share shared m o (Sl o I)) as Hh. rewrite Nn in Hh. rewrite <- Hh. reflexivity.
Qed.
Lemma same_addr_eq p q : same_addr p q = true <-> p = q.
Proof.
  unfold same_addr. destruct p as [[a x]|], q as [[c y]|]; cbn; try (intuition congruence). rewrite andb_true_iff, Nat.eqb_eq, N.eqb_eq.
  split; [intros (-> & ->); reflexivity|intro Q; injection Q; auto].
Qed.
Lemma do_eq v o x o' : handle_to T o v -> handle_to T o' x -> In o os -> In o' os -> Done (SEq o o') (call (lit "operator==") [v; x]).
Proof.
  intros (Tv & Av) (Tx & Ax) I I'. set (f := Fn (lit "operator==") (Arg B Copy false) [Arg T LValue true; Arg T LValue true] (b + 9)).
  erewrite (call2c E H shared b rb T P PP B pid ST) with (os := [f]) (code := b + 9); [| |now left|exact NBv|exact Tv|exact Tx]; [|found].
  rewrite body_eq, (at_slot v o Av I), (at_slot x o' Ax I'). cbn [bind].
  edestruct (finish_new E H f) as (log & ->); [reflexivity|exact NBd|exact NBv|exact stB|].
  eexists _, _, _. split; [reflexivity|]. cbn [st_next v_addr fst]. split; [split; [lia|now apply unborn_mset]|]. split; [now apply buried_mset|]. split; [|split].
  - apply effect_same; auto. now apply extends_mset.
  - intros y J. cbn [held_after]. apply held_frame. apply extends_mset; auto. eapply slot_alive, Sl, J.
  - cbn [op_result]. eapply truth_answers; [|reflexivity|apply mset_same]. rewrite !(held_share shared) by auto. apply same_addr_eq.
Qed.

(* the new smart pointer is stored at next', holding s *)
Lemma stored m1 next' s op : kept_plus shared m1 os [s] -> (shared = false -> snd s = None) -> unborn m1 next' -> st_next st <= next' -> buried (st_next st) m m1 ->
  (forall y d, m y = DData d -> m1 y = DData d) ->
  (forall y, ~ In y os -> (forall d, m y <> DData d) -> (forall n p, m y <> DCtl n p) -> m y <> DNone -> m1 y = m y) ->
  (forall y, holding (shares m os) (y, 0%N) -> holding (s :: shares m1 os) (y, 0%N)) ->
  makes op = true ->
  (forall o, In o (next' :: os) -> held (mset m1 next' (slot shared s)) o = held_after op next' (held m) o) ->
  forall log, Done op (Ok (Val (Arg T LValue false) (next', 0%N) true, mset m1 next' (slot shared s), St (S next') log)).
Proof.
  intros K1 Ns U1 L Bu D1 F1 H1 Mk Hh log. pose proof (kept_store shared m1 os s next' K1 U1 Ns) as K2.
  eexists _, _, _. split; [reflexivity|]. cbn [st_next v_addr fst]. unfold os_after. rewrite Mk. split; [split; [lia|now apply unborn_mset]|]. split; [eapply buried_trans; [exact Bu|now apply buried_mset]|].
  assert (Ny : forall y, m y <> DNone -> y <> next') by (intros y Q ->; apply Q, U; lia).
  split; [|split].
  - split; [exact K2| |].
    + intros y d Ed. right. split; [rewrite mset_other by (apply Ny; congruence); auto|]. right. intro Q. apply H1 in Q.
      cbn [shares map]. fold (shares (mset m1 next' (slot shared s)) os).
      rewrite (slot_share shared _ next' s) by (auto; apply mset_same).
      rewrite (shares_frame m1); [exact Q|]. intros o J. apply mset_other. pose proof (unborn_not_in shared m1 os next' (kp_slots _ _ _ _ K1) U1 o J). lia.
    + intros y N1 N2 N3 N4. rewrite mset_other by auto. auto.
  - exact Hh.
  - destruct op; try discriminate; (split; [reflexivity|]; split; [reflexivity|]; split; [reflexivity|]; cbn; apply U; lia).
Qed.

Lemma do_empty : Done SEmpty (call id []).
Proof.
  rewrite (call_new E H shared b rb T P PP B pid ST). rewrite body_new. cbn [bind].
  edestruct (finish_new E H (Fn id (Arg T Copy false) [] b)) as (log & ->); [reflexivity|exact NTd|exact NTv|exact stT|].
  apply stored; auto using buried_same.
  - now apply kept_empty.
  - intros y (c & J). exists c. now right.
  - intros o [<-|J]; cbn [held_after].
    + rewrite upd_same. apply (held_of shared _ _ (None, None)). apply mset_same.
    + assert (o <> st_next st) by (pose proof (unborn_not_in shared m os _ Sl U o J); lia). rewrite upd_other by auto. apply held_frame. now apply mset_other.
Qed.
Lemma do_move x o : handle_to T o x -> gives x -> In o os -> Done (SMoveOf o) (call id [x]).
Proof.
  intros (Tx & Ax) G I. rewrite (call_move E H shared b rb T P PP B pid ST) by auto. rewrite body_move, (at_slot x o Ax I). cbn [bind]. rewrite Ax.
  edestruct (finish_new E H (Fn id (Arg T Copy false) [Arg T RValue false] (b + 3))) as (log & ->); [reflexivity|exact NTd|exact NTv|exact stT|].
  assert (Lo : o < st_next st) by (apply (unborn_not_in shared m os _ Sl U o I)).
  destruct (slot_plain shared m o (Sl o I)) as (P1 & P2).
  apply stored; auto.
  - now apply kept_moved.
  - intros ->. now apply slot_snd, Sl.
  - intros y Ly. rewrite mset_other by lia. apply U. lia.
  - apply buried_alive. eapply slot_alive, Sl, I.
  - intros y d Ed. rewrite mset_other; auto. intros ->. now apply P1 in Ed.
  - intros y N1 N2 N3 N4. apply mset_other. intros ->. contradiction.
  - intros y Hy. apply (moved_holding shared m os o); auto. exact (kp_nodup _ _ _ _ K).
  - intros y [<-|J]; cbn [held_after].
    + rewrite upd_same. rewrite (held_of shared _ _ (share_of m o)) by apply mset_same. symmetry. now apply held_share with shared, Sl.
    + assert (y <> st_next st) by (pose proof (unborn_not_in shared m os _ Sl U y J); lia). rewrite upd_other by auto.
      destruct (Nat.eq_dec y o) as [->|Q].
      * rewrite upd_same. rewrite (held_of shared _ _ (None, None)); [reflexivity|]. rewrite mset_other by auto. apply mset_same.
      * rewrite upd_other by auto. apply held_frame. now rewrite !mset_other by auto.
Qed.
Lemma do_copy x o : shared = true -> handle_to T o x -> ~ gives x -> In o os -> Done (SCopyOf o) (call id [x]).
Proof.
  intros Sh (Tx & Ax) G I. rewrite (call_copy E H shared b rb T P PP B pid ST) by auto. rewrite body_copy, (at_slot x o Ax I) by auto. cbn [bind].
  assert (K0 := K). rewrite Sh in K0. destruct (kept_retain m os o K0 I) as (m1 & -> & K1 & F1 & F2). cbn [bind]. rewrite <- Sh in K1.
  edestruct (finish_new E H (Fn id (Arg T Copy false) [Arg T LValue true] (b + 1))) as (log & ->); [reflexivity|exact NTd|exact NTv|exact stT|].
  assert (Fo : forall y, In y os -> m1 y = m y) by (intros y J; apply F1; apply (slot_plain shared m y (Sl y J))).
  apply stored; auto.
  - intros Q. congruence.
  - intros y Ly. rewrite F1; [apply U; lia|]. intros n0 q. rewrite U by lia. discriminate.
  - intros y Ly Q. rewrite F1; auto. intros n0 q. congruence.
  - intros y d Ed. rewrite F1; auto. congruence.
  - intros y (c & J). exists c. right. now rewrite (shares_frame m).
  - intros y [<-|J]; cbn [held_after].
    + rewrite upd_same. rewrite (held_of shared _ _ (share_of m o)) by apply mset_same. symmetry. now apply held_share with shared, Sl.
    + assert (y <> st_next st) by (pose proof (unborn_not_in shared m os _ Sl U y J); lia). rewrite upd_other by auto.
      apply held_frame. rewrite mset_other by auto. auto.
Qed.
Lemma do_from x p : raw_handle PP m x p -> (forall a, p = Some a -> live m a /\ ~ holding (shares m os) a) -> Done (SFrom p) (call id [x]).
Proof.
  intros Rx Ad. destruct (call_from E H shared b rb T P PP B pid ST (smart_body shared b) n m st x p Rx) as (log0 & ->).
  set (m0 := mset m (st_next st) (DPtr p)).
  assert (X0 : extends m m0) by now apply extends_mset.
  assert (U0 : unborn m0 (S (st_next st))) by now apply unborn_mset.
  assert (K0 : kept shared m0 os) by (eapply kept_extends; eauto).
  assert (E0 : shares m0 os = shares m os) by (now apply (shares_extends shared)).
  rewrite body_from. unfold ptr_of. cbn [fst]. unfold m0 at 1. rewrite mset_same. cbn [bind].
  destruct (kept_take shared m0 (S (st_next st)) p os U0 K0) as (m1 & next1 & c & Tk & L1 & U1 & F1 & K1 & C1).
  { intros a Ea. destruct (Ad a Ea) as ((Z & d & Ed) & N). split; [|now rewrite E0]. split; auto. exists d. rewrite X0; congruence. }
  assert (Bu : buried (st_next st) m m1).
  { eapply buried_trans; [now apply buried_mset with (next' := st_next st)|]. eapply buried_le; [|eapply take_buried; exact Tk]. lia. }
  rewrite Tk. cbn [bind]. edestruct (finish_new E H (Fn id (Arg T Copy false) [Arg PP Copy false] (b + 5))) as (log & ->); [reflexivity|exact NTd|exact NTv|exact stT|].
  assert (X1 : extends m m1) by (eapply extends_trans; eauto).
  assert (Fo : forall y, In y os -> m1 y = m y) by (intros y J; apply X1; eapply slot_alive, Sl, J).
  apply stored; auto.
  - lia.
  - intros y d Ed. rewrite X1; congruence.
  - intros y (c' & J). exists c'. right. now rewrite (shares_frame m).
  - intros y [<-|J]; cbn [held_after].
    + rewrite upd_same. rewrite (held_of shared _ _ (p, c)) by apply mset_same. reflexivity.
    + assert (y <> next1) by (pose proof (unborn_not_in shared m os _ Sl U y J); lia). rewrite upd_other by auto.
      apply held_frame. rewrite mset_other by auto. auto.
Qed.

(* o gets the share s and its old one goes: the part common to assignments and resets *)
Lemma replaced m1 s a op r w next' : kept_plus shared m1 os [s] -> (shared = false -> snd s = None) -> unborn m1 next' ->
  In (fst a) os -> st_next st <= next' -> buried (st_next st) m m1 ->
  (forall y d, m y = DData d -> m1 y = DData d) ->
  (forall y, ~ In y os -> (forall d, m y <> DData d) -> (forall n p, m y <> DCtl n p) -> m y <> DNone -> m1 y = m y) ->
  (forall y, holding (shares m os) (y, 0%N) -> holding (s :: shares m1 os) (y, 0%N)) ->
  (forall y, holding (s :: shares m1 os) (y, 0%N) -> holding (shares m os) (y, 0%N) \/ fst s = Some (y, 0%N)) ->
  makes op = false -> ~ releases op ->
  (forall o, In o os -> o <> fst a -> held m1 o = held_after op (fst (v_addr w)) (held m) o) ->
  fst s = held_after op (fst (v_addr w)) (held m) (fst a) ->
  (forall m', op_result H T P PP B m m' op w) ->
  (forall m2, exists log, r (m2, next') = Ok (w, m2, St next' log)) ->
  Done op (bind (reset_ shared a m1 next' s) r).
Proof.
  intros K1 Ns U1 I L Bu D1 F1 H1 H2 Mk Nr Hh Ha R Fr. unfold reset_. rewrite (surjective_pairing a).
  destruct (kept_reset shared m1 os s (fst a) (snd a) K1 I Ns) as (m2 & Dr & So & K2 & Ea & Fo & Dd & Ff & _). rewrite So. cbn [bind fst]. rewrite Dr. cbn [bind].
  destruct (Fr m2) as (log & ->). eexists _, _, _. split; [reflexivity|]. cbn [st_next]. unfold os_after. rewrite Mk.
  assert (Hs : forall y, fst s = Some (y, 0%N) -> holding (shares m2 os) (y, 0%N)).
  { intros y Q. exists (snd s). unfold shares. apply in_map_iff. exists (fst a). split; [|exact I]. rewrite (slot_share shared m2 (fst a) s); auto.
    clear - Q. destruct s as [p c]. cbn in *. now rewrite Q. }
  split; [|split; [|split; [|split; [|apply R]]]].
  - split; [exact L|]. eapply drop_unborn; [exact Dr|]. intros y Ly. rewrite mset_other; [now apply U1|].
    pose proof (unborn_not_in shared m1 os next' (kp_slots _ _ _ _ K1) U1 (fst a) I). lia.
  - intros y Ly Q. eapply drop_buried; [exact Dr|]. apply buried_alive with (next := S y); auto. eapply slot_alive, (kp_slots _ _ _ _ K1), I.
  - split; [exact K2| |].
    + intros y d Ed. destruct (Dd y d (D1 y d Ed)) as [(A1 & A2 & A3)|(A1 & A2)].
      * left. split; [|auto]. destruct (H2 y A1) as [Q|Q]; auto. apply Hs in Q. contradiction.
      * right. split; auto. 
    + intros y N1 N2 N3 N4. pose proof (F1 y N1 N2 N3 N4) as Q. rewrite Ff; auto; intros; rewrite Q; auto.
  - intros o J. destruct (Nat.eq_dec o (fst a)) as [->|Q].
    + rewrite (held_of shared _ _ s Ea). exact Ha.
    + rewrite <- (Hh o J Q). apply held_frame. auto.
Qed.

Lemma os_lt o : In o os -> o < st_next st.
Proof. exact (unborn_not_in shared m os _ Sl U o). Qed.
Lemma no_share : shared = false -> forall o, In o os -> snd (share_of m o) = None.
Proof. intros Sh o I. assert (Q := Sl o I). rewrite Sh in Q. now apply slot_snd. Qed.

Lemma do_assign v o x o' : shared = true -> mutable_handle T o v -> handle_to T o' x -> ~ gives x -> In o os -> In o' os ->
  Done (SAssign o o') (call (lit "operator=") [v; x]).
Proof.
  intros Sh Mv (Tx & Ax) G I I'. rewrite (call_assign E H shared b rb T P PP B pid ST) with (o := o) by auto. destruct Mv as (Ea & Av).
  rewrite body_assign, (at_slot x o' Ax I') by auto. cbn [bind].
  assert (K0 := K). rewrite Sh in K0. destruct (kept_retain m os o' K0 I') as (m1 & -> & K1 & F1 & F2). cbn [bind]. rewrite <- Sh in K1.
  assert (Fo : forall y, In y os -> m1 y = m y) by (intros y J; apply F1; apply (slot_plain shared m y (Sl y J))).
  rewrite bind_assoc.
  eapply replaced with (w := Val (Arg T LValue false) (v_addr v) false); auto.
  - intros Q. congruence.
  - intros y Ly. rewrite F1; [apply U; lia|]. intros n0 q. rewrite U by lia. discriminate.
  - now rewrite Av.
  - intros y Ly Q. rewrite F1; auto. intros n0 q. congruence.
  - intros y d Ed. rewrite F1; auto. congruence.
  - intros y (c & J). exists c. right. now rewrite (shares_frame m).
  - rewrite (shares_frame m) by auto. intros y (c & [Q|J]); left; exists c; auto. rewrite <- Q. unfold shares. apply in_map_iff. eauto.
  - intros (z & Q). discriminate.
  - rewrite Av. intros y J Q. cbn [held_after]. rewrite upd_other by auto. apply held_frame. auto.
  - rewrite Av. cbn [held_after]. rewrite upd_same. symmetry. now apply held_share with shared, Sl.
  - intros m'. split; [reflexivity|]. split; [reflexivity|]. exact Av.
  - intros m2. cbn [bind]. apply finish_ref with (X := T); auto.
Qed.
Lemma do_move_assign v o x o' : mutable_handle T o v -> handle_to T o' x -> gives x -> In o os -> In o' os ->
  Done (SMoveAssign o o') (call (lit "operator=") [v; x]).
Proof.
  intros Mv (Tx & Ax) G I I'. rewrite (call_move_assign E H shared b rb T P PP B pid ST) with (o := o) by auto. destruct Mv as (Ea & Av).
  rewrite body_move_assign, (at_slot x o' Ax I'). cbn [bind]. rewrite Ax. rewrite bind_assoc.
  destruct (slot_plain shared m o' (Sl o' I')) as (P1 & P2). pose proof (os_lt o' I') as Lo.
  eapply replaced with (w := Val (Arg T LValue false) (v_addr v) false); auto.
  - now apply kept_moved.
  - intros Q. now apply no_share.
  - intros y Ly. rewrite mset_other by lia. apply U. lia.
  - now rewrite Av.
  - apply buried_alive. eapply slot_alive, Sl, I'.
  - intros y d Ed. rewrite mset_other; auto. intros ->. now apply P1 in Ed.
  - intros y N1 N2 N3 N4. apply mset_other. intros ->. contradiction.
  - intros y Hy. apply (moved_holding shared m os o'); auto. exact (kp_nodup _ _ _ _ K).
  - intros y Hy. left. apply (moved_holding shared m os o'); auto. exact (kp_nodup _ _ _ _ K).
  - intros (z & Q). discriminate.
  - rewrite Av. intros y J Q. cbn [held_after]. rewrite upd_other by auto. destruct (Nat.eq_dec y o') as [->|Q'].
    + rewrite upd_same. rewrite (held_of shared _ _ (None, None)); [reflexivity|]. apply mset_same.
    + rewrite upd_other by auto. apply held_frame. now apply mset_other.
  - rewrite Av. cbn [held_after]. rewrite upd_same. symmetry. now apply held_share with shared, Sl.
  - intros m'. split; [reflexivity|]. split; [reflexivity|]. exact Av.
  - intros m2. cbn [bind]. apply finish_ref with (X := T); auto.
Qed.
Definition reset0 := Fn (lit "reset") (Arg (h_void H) Copy false) [Arg T LValue false] (b + (if shared then 10 else 12)).
Definition reset1 := Fn (lit "reset") (Arg (h_void H) Copy false) [Arg T LValue false; Arg PP Copy false] (b + 11).
Lemma resets_found : function H T (lit "reset") = Ok (if shared then [reset0; reset1] else [reset1; reset0]).
Proof. apply (sm_function E H shared b rb T P PP B pid ST); [apply sm_name; discriminate|discriminate|rewrite resets_filter|apply (if_both _ _ _ (fun l => l <> [])); discriminate].
  unfold reset0, reset1. generalize shared. now intros [].
Qed.
Lemma do_reset v o : mutable_handle T o v -> In o os -> Done (SReset o) (call (lit "reset") [v]).
Proof.
  intros Mv I. pose proof resets_found as Fo.
  erewrite (call1m E H shared b rb T P PP B pid ST) with (ret := Arg (h_void H) Copy false) (code := b + (if shared then 10 else 12)); [|exact Fo| |exact (not_eq_sym NV)|exact Mv].
  2: { right. exists reset1. split; [discriminate|]. split; [exact (not_eq_sym NV)|]. apply (if_both _ _ _ (fun l => l = _ \/ l = _)); auto. }
  destruct Mv as (Ea & Av). rewrite body_reset, bind_assoc.
  eapply replaced with (w := void_value H); auto.
  - now apply kept_empty.
  - now rewrite Av.
  - apply buried_same.
  - intros y (c & J). exists c. now right.
  - intros y (c & [Q|J]); [discriminate|]. left. now exists c.
  - intros (z & Q). discriminate.
  - rewrite Av. intros y J Q. cbn [held_after]. now rewrite upd_other by auto.
  - rewrite Av. cbn [held_after]. now rewrite upd_same.
  - intros m'. reflexivity.
  - intros m2. cbn [bind]. now apply finish_void.
Qed.
Lemma do_reset_to v o x p : mutable_handle T o v -> raw_handle PP m x p -> In o os ->
  (forall a, p = Some a -> live m a /\ ~ holding (shares m os) a) -> Done (SResetTo o p) (call (lit "reset") [v; x]).
Proof.
  intros Mv Rx I Ad. pose proof resets_found as Fn_.
  edestruct (call2p E H shared b rb T P PP B pid ST (smart_body shared b) n m st (lit "reset") (Arg (h_void H) Copy false) (b + 11)) as (log0 & ->); [exact Fn_| |exact (not_eq_sym NV)|exact Mv|exact Rx|].
  { right. exists reset0. split; [discriminate|]. split; [exact (not_eq_sym NV)|]. apply (if_both _ _ _ (fun l => l = _ \/ l = _)); auto. }
  destruct Mv as (Ea & Av). set (m0 := mset m (st_next st) (DPtr p)).
  assert (X0 : extends m m0) by now apply extends_mset.
  assert (U0 : unborn m0 (S (st_next st))) by now apply unborn_mset.
  assert (K0 : kept shared m0 os) by (eapply kept_extends; eauto).
  assert (Es : shares m0 os = shares m os) by (now apply (shares_extends shared)).
  rewrite body_reset_to. unfold ptr_of. cbn [fst]. unfold m0 at 1. rewrite mset_same. cbn [bind].
  destruct (kept_take shared m0 (S (st_next st)) p os U0 K0) as (m1 & next1 & c & Tk & L1 & U1 & F1 & K1 & C1).
  { intros a Eq. destruct (Ad a Eq) as ((Z & d & Ed) & N). split; [|now rewrite Es]. split; auto. exists d. rewrite X0; congruence. }
  assert (Bu : buried (st_next st) m m1).
  { eapply buried_trans; [now apply buried_mset with (next' := st_next st)|]. eapply buried_le; [|eapply take_buried; exact Tk]. lia. }
  rewrite Tk, bind_assoc.
  assert (X1 : extends m m1) by (eapply extends_trans; eauto).
  assert (Fo : forall y, In y os -> m1 y = m y) by (intros y J; apply X1; eapply slot_alive, Sl, J).
  eapply replaced with (w := void_value H); auto.
  - now rewrite Av.
  - lia.
  - intros y d Ed. rewrite X1; congruence.
  - intros y (c' & J). exists c'. right. now rewrite (shares_frame m).
  - rewrite (shares_frame m) by auto. intros y (c' & [Q|J]); [right; injection Q as Q1 Q2; exact Q1|left; now exists c'].
  - intros (z & Q). discriminate.
  - rewrite Av. intros y J Q. cbn [held_after]. rewrite upd_other by auto. apply held_frame. auto.
  - rewrite Av. cbn [held_after]. now rewrite upd_same.
  - intros m'. reflexivity.
  - intros m2. cbn [bind]. now apply finish_void.
Qed.
Lemma do_release v o : shared = false -> mutable_handle T o v -> In o os -> Done (SRelease o) (call (lit "release") [v]).
Proof.
  intros Sh Mv I. set (f := Fn (lit "release") (Arg PP Copy false) [Arg T LValue false] (b + 10)).
  erewrite (call1m E H shared b rb T P PP B pid ST) with (os := [f]) (code := b + 10); [| |now left|exact NQv|exact Mv].
  2: { apply (sm_function E H shared b rb T P PP B pid ST); [apply sm_name; discriminate|discriminate|now apply release_filter|discriminate]. }
  destruct Mv as (Ea & Av). rewrite body_release, (at_slot v o Av I) by auto. cbn [bind]. rewrite Av.
  edestruct (finish_new E H f) as (log & ->); [reflexivity|exact NQd|exact NQv|exact stQ|].
  assert (K1 : kept shared (mset m o (slot shared (None, None))) os).
  { assert (K0 := K). rewrite Sh in K0. rewrite Sh. now apply kept_release. }
  pose proof (os_lt o I) as Lo. destruct (slot_plain shared m o (Sl o I)) as (P1 & P2).
  set (m1 := mset m o (slot shared (None, None))) in *.
  assert (U1 : unborn m1 (st_next st)) by (intros y Ly; unfold m1; rewrite mset_other by lia; apply U; lia).
  pose proof (extends_mset m1 (st_next st) (DPtr (fst (share_of m o))) U1) as X1.
  eexists _, _, _. split; [reflexivity|]. cbn [st_next v_addr fst]. split; [split; [lia|now apply unborn_mset]|]. split; [eapply buried_trans; [apply buried_alive|now apply buried_mset]; eapply slot_alive, Sl, I|]. unfold os_after. cbn [makes]. split; [|split].
  - split.
    + eapply kept_extends; eauto.
    + intros y d Ed. right. assert (y <> o) by (intros ->; now apply P1 in Ed). assert (m1 y = m y) as Q by (now apply mset_other).
      rewrite X1 by congruence. split; [congruence|]. left. now exists o.
    + intros y N1 N2 N3 N4. assert (y <> o) by congruence. assert (m1 y = m y) as Q by (now apply mset_other). rewrite X1 by congruence. exact Q.
  - intros y J. cbn [held_after]. assert (Ny : y <> st_next st) by (pose proof (os_lt y J); lia). destruct (Nat.eq_dec y o) as [->|Q].
    + rewrite upd_same. rewrite (held_of shared _ _ (None, None)); [reflexivity|]. rewrite mset_other by auto. apply mset_same.
    + rewrite upd_other by auto. apply held_frame. rewrite mset_other by auto. now apply mset_other.
  - split; [reflexivity|]. split; [reflexivity|]. split; [reflexivity|]. cbn. rewrite mset_same. now rewrite (held_share shared) by auto.
Qed.

Lemma do_op op name args : asked T PP id m op name args -> op_ok shared m os op -> Done op (call name args).
Proof.
  intros Q O. assert (Ad : forall p, adoptable shared m os p -> forall a, p = Some a -> live m a /\ ~ holding (shares m os) a).
  { intros p Z a Ea. destruct (Z a Ea) as (Z1 & Z2). split; auto. now rewrite <- (owned_holding shared). }
  destruct Q; cbn [op_ok] in O.
  - exact do_empty.
  - apply do_from; [assumption|exact (Ad p O)].
  - apply do_copy; tauto.
  - now apply do_move.
  - eapply do_assign; eauto; tauto.
  - eapply do_move_assign; eauto; tauto.
  - now apply do_reset.
  - destruct O as (O1 & O2). eapply do_reset_to; [eassumption|eassumption|exact O1|exact (Ad p O2)].
  - apply do_release; tauto.
  - now apply do_get.
  - now apply do_bool.
  - apply do_deref; tauto.
  - apply do_eq; tauto.
Qed.
End Ops.

(* in the words of the specification *)
Lemma effect_deletes shared m os m' os' R : (forall o, In o os -> is_slot shared m o) -> effect shared m os m' os' R -> deletes_exactly shared m m' os os' R.
Proof.
  intros S [K D F]. assert (O1 : forall y, owned shared m os (y, 0%N) <-> holding (shares m os) (y, 0%N)) by (intro; now apply owned_holding).
  assert (O2 : forall y, owned shared m' os' (y, 0%N) <-> holding (shares m' os') (y, 0%N)) by (intro; apply owned_holding; exact (kp_slots _ _ _ _ K)).
  split; [|exact F]. intros y d Ed. unfold let_go. rewrite O1, O2. destruct (D y d Ed) as [?|(A & B)]; [left; tauto|right]. split; auto. tauto.
Qed.
