(* ProofCore.v - lemmas about ModelCore.v *)
From Coq Require String.
Import String.StringSyntax.
From Coq Require Import Permutation Sorting.Sorted Relations.
From Verif Require Import Base ModelCore SpecCore.

Lemma isPointer_spec t : isPointer t = true <-> In (lit "pointer") (t_traits t).
Proof. unfold isPointer, is_trait. apply smem_In. Qed.

Lemma ref_eqb_eq a b : ref_eqb a b = true <-> a = b.
Proof. destruct a, b; cbn; split; congruence. Qed.

Lemma grade_eqb_eq a b : grade_eqb a b = true <-> a = b.
Proof. destruct a, b; cbn; split; congruence. Qed.

Lemma arg_eqb_eq a b : arg_eqb a b = true <-> a = b.
Proof.
  destruct a as [ta ra ca], b as [tb rb cb]; unfold arg_eqb; cbn.
  rewrite !andb_true_iff, Nat.eqb_eq, ref_eqb_eq, eqb_true_iff.
  intuition congruence.
Qed.

(* ---------- termination ---------- *)

(* every chain of links starting in a is shorter than n *)
Fixpoint dbound (n : nat) (H : heap) (a : tptr) : Prop :=
  match n with
  | O => False
  | S n' => forall j, link H a j -> dbound n' H j
  end.

Lemma NoDup_bounded_length (l : list nat) n : NoDup l -> (forall x, In x l -> x < n) -> length l <= n.
Proof.
  intros Hnd Hb.
  assert (incl l (seq 0 n)) by (intros x Hx; apply in_seq; specialize (Hb x Hx); lia).
  rewrite <- (seq_length n 0). apply NoDup_incl_length; auto.
Qed.

Lemma dbound_gen H rank :
  (forall a p, link H a p -> valid H p) ->
  (forall a p, link H a p -> rank p < rank a) ->
  forall n visited a,
    n + length visited = fuel_of H ->
    NoDup visited -> (forall x, In x visited -> x < length (h_types H)) ->
    (forall x, In x visited -> rank a < rank x) ->
    valid H a ->
    dbound n H a.
Proof.
  intros Hv Hr. induction n as [|n IH]; intros visited a Hn Hnd Hb Hlt Ha; cbn.
  - cbn in Hn. pose proof (NoDup_bounded_length visited _ Hnd Hb). unfold fuel_of in Hn. lia.
  - intros j Hj. apply (IH (a :: visited)).
    + cbn. lia.
    + constructor; auto. intro Hin. specialize (Hlt a Hin). lia.
    + intros x [<-|Hx]; auto.
    + pose proof (Hr _ _ Hj). intros x [<-|Hx]; auto. specialize (Hlt x Hx). lia.
    + eauto.
Qed.

Lemma wf_dbound H a : wf_heap H -> valid H a -> dbound (fuel_of H) H a.
Proof.
  intros W Ha. destruct (wf_acyclic H W) as [rank Hr].
  apply (dbound_gen H rank (wf_links H W) Hr _ [] a); cbn [length In]; try tauto; try lia.
  constructor.
Qed.

Lemma tget_valid H a t : tget H a = Some t -> valid H a.
Proof. unfold tget, valid. intro E. apply nth_error_Some. congruence. Qed.

Lemma valid_tget H a : valid H a -> exists t, tget H a = Some t.
Proof.
  unfold valid, tget. intro Hv. destruct (nth_error (h_types H) a) eqn:E; eauto.
  apply nth_error_None in E. lia.
Qed.

Lemma isChildOf_f_mono H n : forall m a b r,
  isChildOf_f n H a b = r -> r <> OutOfFuel -> n <= m -> isChildOf_f m H a b = r.
Proof.
  induction n as [|n IH]; intros m a b r E Hr Hm; cbn in E; [congruence|].
  destruct m as [|m]; [lia|]. cbn.
  destruct (Nat.eqb a b); auto.
  destruct (tget H a) as [ta|]; auto. destruct (tget H b) as [tb|]; auto.
  destruct (isPointer ta && isPointer tb).
  - destruct (negb _); auto. destruct (t_pointee ta), (t_pointee tb); auto.
    apply IH; auto; lia.
  - destruct (t_parent ta); auto. apply IH; auto; lia.
Qed.

Lemma isChildOf_f_total H : wf_heap H -> forall n a b,
  dbound n H a -> valid H a -> valid H b -> exists r, isChildOf_f n H a b = Ok r.
Proof.
  intros W. induction n as [|n IH]; intros a b Hd Ha Hb; cbn in *; [tauto|].
  destruct (Nat.eqb a b); eauto.
  destruct (valid_tget H a Ha) as [ta Ea], (valid_tget H b Hb) as [tb Eb].
  rewrite Ea, Eb.
  destruct (isPointer ta && isPointer tb) eqn:Ep.
  - apply andb_true_iff in Ep as [Pa Pb].
    apply isPointer_spec in Pa. apply isPointer_spec in Pb.
    destruct (negb _); eauto.
    destruct (wf_ptr H W a) as (ka & pa & ta' & Ea' & _ & _ & Qa); [exists ta; auto|].
    destruct (wf_ptr H W b) as (kb & pb & tb' & Eb' & _ & _ & Qb); [exists tb; auto|].
    rewrite Ea in Ea'; injection Ea' as <-. rewrite Eb in Eb'; injection Eb' as <-.
    rewrite Qa, Qb. apply IH.
    + apply Hd. exists ta; auto.
    + apply (wf_links H W a). exists ta; auto.
    + apply (wf_links H W b). exists tb; auto.
  - destruct (t_parent ta) as [p|] eqn:Epar; eauto.
    apply IH; auto.
    + apply Hd. exists ta; auto.
    + apply (wf_links H W a). exists ta; auto.
Qed.

Lemma isChildOf_total H a b : wf_heap H -> valid H a -> valid H b -> exists r, isChildOf H a b = Ok r.
Proof. intros W Ha Hb. apply isChildOf_f_total; auto. apply wf_dbound; auto. Qed.

Lemma isChildOf_f_sound H : forall n a b, isChildOf_f n H a b = Ok true -> Subtype H a b.
Proof.
  induction n as [|n IH]; intros a b E; cbn in E; [discriminate|].
  destruct (Nat.eqb_spec a b) as [->|Hne]; [constructor|].
  destruct (tget H a) as [ta|] eqn:Ea; [|discriminate].
  destruct (tget H b) as [tb|] eqn:Eb; [|discriminate].
  destruct (isPointer ta && isPointer tb) eqn:Ep.
  - apply andb_true_iff in Ep as [Pa Pb].
    apply isPointer_spec in Pa. apply isPointer_spec in Pb.
    destruct (str_eqb_spec (t_pointer ta) (t_pointer tb)) as [Ek|]; cbn in E; [|discriminate].
    destruct (t_pointee ta) as [pa|] eqn:Qa; [|discriminate].
    destruct (t_pointee tb) as [pb|] eqn:Qb; [|discriminate].
    apply (Sub_pointer H a b (t_pointer ta) pa pb).
    + exists ta; auto.
    + exists tb; rewrite Ek; auto.
    + eauto.
  - destruct (t_parent ta) as [p|] eqn:Epar; [|discriminate].
    apply (Sub_parent H a p b); eauto.
    + exists ta; auto.
    + intros [(ta' & Ea' & Pa) (tb' & Eb' & Pb)].
      rewrite Ea in Ea'; injection Ea' as <-. rewrite Eb in Eb'; injection Eb' as <-.
      apply isPointer_spec in Pa. apply isPointer_spec in Pb.
      rewrite Pa, Pb in Ep. discriminate.
Qed.

Lemma isChildOf_f_complete H : wf_heap H -> forall a b, Subtype H a b ->
  valid H a -> valid H b -> exists n, isChildOf_f n H a b = Ok true.
Proof.
  intros W a b S. induction S as [a|a p b Hp Hnp S IH|a b k pa pb Ha Hb S IH]; intros Va Vb.
  - exists 1. cbn. now rewrite Nat.eqb_refl.
  - destruct Hp as (ta & Ea & Epar).
    assert (Vp : valid H p) by (apply (wf_links H W a); exists ta; auto).
    destruct (IH Vp Vb) as [n En]. exists (Datatypes.S n). cbn.
    destruct (Nat.eqb a b); auto.
    destruct (valid_tget H b Vb) as [tb Eb]. rewrite Ea, Eb, Epar.
    destruct (isPointer ta && isPointer tb) eqn:Ep; auto.
    exfalso. apply andb_true_iff in Ep as [Pa Pb].
    apply isPointer_spec in Pa. apply isPointer_spec in Pb.
    apply Hnp. split; [exists ta|exists tb]; auto.
  - destruct Ha as (ta & Ea & Pa & Ka & Qa), Hb as (tb & Eb & Pb & Kb & Qb).
    assert (Vpa : valid H pa) by (apply (wf_links H W a); exists ta; auto).
    assert (Vpb : valid H pb) by (apply (wf_links H W b); exists tb; auto).
    destruct (IH Vpa Vpb) as [n En]. exists (Datatypes.S n). cbn.
    destruct (Nat.eqb a b); auto. rewrite Ea, Eb.
    apply isPointer_spec in Pa. apply isPointer_spec in Pb. rewrite Pa, Pb, Ka, Kb, Qa, Qb.
    cbn. rewrite str_eqb_refl. cbn. auto.
Qed.

Lemma isChildOf_spec H a b : wf_heap H -> valid H a -> valid H b ->
  (isChildOf H a b = Ok true <-> Subtype H a b).
Proof.
  intros W Va Vb. split; [apply isChildOf_f_sound|].
  intro S. destruct (isChildOf_f_complete H W a b S Va Vb) as [n En].
  destruct (isChildOf_total H a b W Va Vb) as [r Er].
  destruct r; auto. exfalso. unfold isChildOf in Er.
  destruct (Nat.le_ge_cases n (fuel_of H)) as [L|L].
  - rewrite (isChildOf_f_mono H n (fuel_of H) a b _ En) in Er; congruence.
  - rewrite (isChildOf_f_mono H (fuel_of H) n a b _ Er) in En; congruence.
Qed.

Lemma isChildOf_spec_false H a b : wf_heap H -> valid H a -> valid H b ->
  (isChildOf H a b = Ok false <-> ~ Subtype H a b).
Proof.
  intros W Va Vb. destruct (isChildOf_total H a b W Va Vb) as [r Er].
  rewrite Er. pose proof (isChildOf_spec H a b W Va Vb) as Sp. rewrite Er in Sp.
  destruct r; split; intro E; try congruence.
  - exfalso. apply E. now apply Sp.
  - intro S. apply Sp in S. congruence.
Qed.

(* Subtype as ancestry on non pointers *)
Lemma subtype_ancestor H a b : ~ is_ptr H b -> (Subtype H a b <-> ancestor H a b).
Proof.
  intro Hb. split.
  - intro S. induction S as [a|a p b Hp Hnp S IH|a b k pa pb Ha Hb' S IH].
    + apply rt1n_refl.
    + eapply Relation_Operators.rt1n_trans; eauto. apply IH; auto.
    + exfalso. apply Hb. destruct Hb' as (t & E & P & _). exists t; auto.
  - intro A. induction A as [|a p b Hp A IH].
    + constructor.
    + apply (Sub_parent H a p b); auto. tauto.
Qed.

Lemma subtype_pointer H a b : is_ptr H a -> is_ptr H b -> a <> b ->
  (Subtype H a b <-> exists k pa pb, points_to H a k pa /\ points_to H b k pb /\ Subtype H pa pb).
Proof.
  intros Pa Pb Hne. split.
  - intro S. inversion S; subst; [congruence|tauto|eauto 6].
  - intros (k & pa & pb & Ha & Hb & S). eapply Sub_pointer; eauto.
Qed.

Lemma points_to_is_ptr H a k p : points_to H a k p -> is_ptr H a.
Proof. intros (t & E & P & _). exists t; auto. Qed.

Lemma points_to_fun H a k k' p p' : points_to H a k p -> points_to H a k' p' -> k = k' /\ p = p'.
Proof.
  intros (t & E & _ & K & Q) (t' & E' & _ & K' & Q'). rewrite E in E'. injection E' as <-.
  split; congruence.
Qed.

Lemma subtype_trans H a b c : pointers_not_inherited H ->
  Subtype H a b -> Subtype H b c -> Subtype H a c.
Proof.
  intros NI S1. revert c. induction S1 as [a|a p b Hp Hnp S IH|a b k pa pb Ha Hb S IH]; intros c S2; auto.
  - apply (Sub_parent H a p c); auto. apply NI in Hp. tauto.
  - inversion S2 as [|? p ? Hp' Hnp' S'|? ? k' pb' pc Hb' Hc S']; subst.
    + eapply Sub_pointer; eauto.
    + exfalso. apply NI in Hp' as [N _]. apply N. eapply points_to_is_ptr; eauto.
    + destruct (points_to_fun _ _ _ _ _ _ Hb Hb') as [<- <-].
      eapply Sub_pointer; eauto.
Qed.

Lemma subtype_rank H rank : pointers_not_inherited H ->
  (forall a p, link H a p -> rank p < rank a) ->
  forall a b, Subtype H a b -> is_ptr H a \/ a = b \/ rank b < rank a.
Proof.
  intros NI Hr a b S. induction S as [a|a p b Hp Hnp S IH|a b k pa pb Ha Hb S IH]; auto.
  - destruct (NI _ _ Hp) as [Na Np]. destruct Hp as (t & E & Ep).
    assert (rank p < rank a) by (apply Hr; exists t; auto).
    destruct IH as [?|[->|?]]; [contradiction|auto|right; right; lia].
  - left. eapply points_to_is_ptr; eauto.
Qed.

Lemma subtype_ptr_iff H a b : pointers_not_inherited H -> Subtype H a b -> (is_ptr H a <-> is_ptr H b).
Proof.
  intros NI S. induction S as [a|a p b Hp Hnp S IH|a b k pa pb Ha Hb S IH].
  - tauto.
  - destruct (NI _ _ Hp) as [Na Np]. tauto.
  - split; intros _; eapply points_to_is_ptr; eauto.
Qed.

Lemma is_ptr_dec H a : is_ptr H a \/ ~ is_ptr H a.
Proof.
  destruct (tget H a) as [t|] eqn:E.
  - destruct (smem (lit "pointer") (t_traits t)) eqn:M.
    + left. exists t. split; auto. now apply smem_In.
    + right. intros (t' & E' & P). rewrite E in E'. injection E' as <-.
      apply smem_In in P. congruence.
  - right. intros (t' & E' & P). congruence.
Qed.

Lemma subtype_antisym H a b : wf_heap H -> pointers_not_inherited H -> pointers_unique H ->
  Subtype H a b -> Subtype H b a -> a = b.
Proof.
  intros W NI PU S1. destruct (wf_acyclic H W) as [rank Hr].
  induction S1 as [a|a p b Hp Hnp S IH|a b k pa pb Ha Hb S IH]; intro S2; auto.
  - destruct (NI _ _ Hp) as [Na _].
    assert (Sab : Subtype H a b) by (eapply Sub_parent; eauto).
    assert (Nb : ~ is_ptr H b) by (rewrite <- (subtype_ptr_iff H a b NI Sab); auto).
    destruct (subtype_rank H rank NI Hr a b Sab) as [?|[?|?]]; [contradiction|auto|].
    destruct (subtype_rank H rank NI Hr b a S2) as [?|[?|?]]; [contradiction|auto|lia].
  - inversion S2 as [|? p ? Hp' Hnp' S'|? ? k' pb' pa' Hb' Ha' S']; subst; auto.
    + exfalso. destruct (NI _ _ Hp') as [N _]. apply N. eapply points_to_is_ptr; eauto.
    + destruct (points_to_fun _ _ _ _ _ _ Hb Hb') as [<- <-].
      destruct (points_to_fun _ _ _ _ _ _ Ha Ha') as [_ <-].
      assert (pa = pb) by auto. subst. eapply PU; eauto.
Qed.

(* ---------- member lookup ---------- *)

Lemma hasFunction_f_total H : wf_heap H -> forall n a name,
  dbound n H a -> valid H a -> exists r, hasFunction_f n H a name = Ok r.
Proof.
  intro W. induction n as [|n IH]; intros a name Hd Va; cbn in *; [tauto|].
  destruct (valid_tget H a Va) as [t E]. rewrite E.
  destruct (ahas name (t_fns t)); eauto. destruct (t_parent t) as [p|] eqn:Ep; eauto.
  apply IH.
  - apply Hd. exists t; auto.
  - apply (wf_links H W a). exists t; auto.
Qed.

Lemma hasFunction_total H a name : wf_heap H -> valid H a -> exists r, hasFunction H a name = Ok r.
Proof. intros W Va. apply hasFunction_f_total; auto. apply wf_dbound; auto. Qed.

Lemma hasFunction_f_spec H : wf_heap H -> forall n a name,
  dbound n H a -> valid H a ->
  (hasFunction_f n H a name = Ok true <-> exists c, ancestor H a c /\ declares_fn H c name).
Proof.
  intro W. induction n as [|n IH]; intros a name Hd Va; cbn in *; [tauto|].
  destruct (valid_tget H a Va) as [t E]. rewrite E.
  destruct (ahas name (t_fns t)) eqn:Eh.
  - split; auto. intros _. exists a. split; [apply rt1n_refl|]. exists t. split; auto. now apply ahas_In.
  - assert (Hno : ~ declares_fn H a name).
    { intros (t' & E' & Hin). rewrite E in E'. injection E' as <-. apply ahas_In in Hin. congruence. }
    destruct (t_parent t) as [p|] eqn:Ep.
    + rewrite IH.
      * split; intros (c & A & D).
        -- exists c. split; auto. eapply Relation_Operators.rt1n_trans; eauto. exists t; auto.
        -- inversion A as [|p' ? (t' & E' & Ep') A']; subst; [contradiction|].
           rewrite E in E'. injection E' as <-. rewrite Ep in Ep'. injection Ep' as <-. eauto.
      * apply Hd. exists t; auto.
      * apply (wf_links H W a). exists t; auto.
    + split; [discriminate|]. intros (c & A & D).
      inversion A as [|p' ? (t' & E' & Ep') A']; subst; [contradiction|].
      rewrite E in E'. injection E' as <-. congruence.
Qed.

Lemma hasFunction_spec H a name : wf_heap H -> valid H a ->
  (hasFunction H a name = Ok true <-> exists c, ancestor H a c /\ declares_fn H c name).
Proof. intros W Va. apply hasFunction_f_spec; auto. apply wf_dbound; auto. Qed.

Lemma hasField_f_total H : wf_heap H -> forall n a name,
  dbound n H a -> valid H a -> exists r, hasField_f n H a name = Ok r.
Proof.
  intro W. induction n as [|n IH]; intros a name Hd Va; cbn in *; [tauto|].
  destruct (valid_tget H a Va) as [t E]. rewrite E.
  destruct (ahas name (t_fields t)); eauto. destruct (t_parent t) as [p|] eqn:Ep; eauto.
  apply IH.
  - apply Hd. exists t; auto.
  - apply (wf_links H W a). exists t; auto.
Qed.

Lemma hasField_total H a name : wf_heap H -> valid H a -> exists r, hasField H a name = Ok r.
Proof. intros W Va. apply hasField_f_total; auto. apply wf_dbound; auto. Qed.

Lemma hasField_f_spec H : wf_heap H -> forall n a name,
  dbound n H a -> valid H a ->
  (hasField_f n H a name = Ok true <-> exists c, ancestor H a c /\ declares_field H c name).
Proof.
  intro W. induction n as [|n IH]; intros a name Hd Va; cbn in *; [tauto|].
  destruct (valid_tget H a Va) as [t E]. rewrite E.
  destruct (ahas name (t_fields t)) eqn:Eh.
  - split; auto. intros _. exists a. split; [apply rt1n_refl|]. exists t. split; auto. now apply ahas_In.
  - assert (Hno : ~ declares_field H a name).
    { intros (t' & E' & Hin). rewrite E in E'. injection E' as <-. apply ahas_In in Hin. congruence. }
    destruct (t_parent t) as [p|] eqn:Ep.
    + rewrite IH.
      * split; intros (c & A & D).
        -- exists c. split; auto. eapply Relation_Operators.rt1n_trans; eauto. exists t; auto.
        -- inversion A as [|p' ? (t' & E' & Ep') A']; subst; [contradiction|].
           rewrite E in E'. injection E' as <-. rewrite Ep in Ep'. injection Ep' as <-. eauto.
      * apply Hd. exists t; auto.
      * apply (wf_links H W a). exists t; auto.
    + split; [discriminate|]. intros (c & A & D).
      inversion A as [|p' ? (t' & E' & Ep') A']; subst; [contradiction|].
      rewrite E in E'. injection E' as <-. congruence.
Qed.

Lemma hasField_spec H a name : wf_heap H -> valid H a ->
  (hasField H a name = Ok true <-> exists c, ancestor H a c /\ declares_field H c name).
Proof. intros W Va. apply hasField_f_spec; auto. apply wf_dbound; auto. Qed.

(* nearest definition *)
Lemma function_f_spec H : wf_heap H -> forall n a name,
  dbound n H a -> valid H a ->
  (exists x, function_f n H a name = Ok x /\ Nearest H t_fns name a x /\ hasFunction_f n H a name = Ok true)
  \/ (function_f n H a name = Abort /\ hasFunction_f n H a name = Ok false).
Proof.
  intro W. induction n as [|n IH]; intros a name Hd Va; cbn in *; [tauto|].
  destruct (valid_tget H a Va) as [t E]. rewrite E. unfold ahas.
  destruct (afind name (t_fns t)) as [x|] eqn:Ef.
  - left. exists x. repeat split; auto. eapply Near_here; eauto.
  - destruct (t_parent t) as [p|] eqn:Ep; auto.
    destruct (IH p name) as [(x & E1 & N & E2)|[E1 E2]].
    + apply Hd. exists t; auto.
    + apply (wf_links H W a). exists t; auto.
    + left. exists x. repeat split; auto. eapply Near_parent; eauto. now apply afind_None.
    + auto.
Qed.

Lemma field_f_spec H : wf_heap H -> forall n a name,
  dbound n H a -> valid H a ->
  (exists x, field_f n H a name = Ok x /\ Nearest H t_fields name a x /\ hasField_f n H a name = Ok true)
  \/ (field_f n H a name = Abort /\ hasField_f n H a name = Ok false).
Proof.
  intro W. induction n as [|n IH]; intros a name Hd Va; cbn in *; [tauto|].
  destruct (valid_tget H a Va) as [t E]. rewrite E. unfold ahas.
  destruct (afind name (t_fields t)) as [x|] eqn:Ef.
  - left. exists x. repeat split; auto. eapply Near_here; eauto.
  - destruct (t_parent t) as [p|] eqn:Ep; auto.
    destruct (IH p name) as [(x & E1 & N & E2)|[E1 E2]].
    + apply Hd. exists t; auto.
    + apply (wf_links H W a). exists t; auto.
    + left. exists x. repeat split; auto. eapply Near_parent; eauto. now apply afind_None.
    + auto.
Qed.

Lemma Nearest_fun {V} H (own : typerec -> list (str * V)) n a x y :
  Nearest H own n a x -> Nearest H own n a y -> x = y.
Proof.
  intro N1. induction N1 as [a t x E F|a t p x E Hn Ep N1 IH]; intro N2; inversion N2; subst.
  - congruence.
  - rewrite E in H0. injection H0 as <-. exfalso. apply H1. eapply afind_Some_key; eauto.
  - rewrite E in H0. injection H0 as <-. exfalso. apply Hn. eapply afind_Some_key; eauto.
  - rewrite E in H0. injection H0 as <-. rewrite Ep in H2. injection H2 as <-. auto.
Qed.

(* ---------- listings ---------- *)

Lemma insert_sorted_In x y l : In y (insert_sorted x l) <-> y = x \/ In y l.
Proof.
  induction l as [|z l IH]; cbn; [intuition|].
  destruct (str_ltb z x); cbn; rewrite ?IH; intuition.
Qed.

Lemma sort_strs_In y l : In y (sort_strs l) <-> In y l.
Proof.
  induction l as [|x l IH]; cbn; [tauto|]. rewrite insert_sorted_In, IH. intuition.
Qed.

Definition le_str a b := str_ltb b a = false.

Lemma le_str_trans a b c : le_str a b -> le_str b c -> le_str a c.
Proof.
  unfold le_str. intros H1 H2. destruct (str_ltb c a) eqn:E; auto.
  destruct (str_ltb_total a b) as [->|[H|H]]; try congruence.
  pose proof (str_ltb_trans _ _ _ E H). congruence.
Qed.

Lemma insert_sorted_sorted x l : StronglySorted le_str l -> StronglySorted le_str (insert_sorted x l).
Proof.
  induction l as [|y l IH]; cbn; intro S.
  - constructor; constructor.
  - inversion S as [|? ? S' F]; subst. destruct (str_ltb y x) eqn:E.
    + constructor; auto. apply Forall_forall. intros z Hz.
      apply insert_sorted_In in Hz as [->|Hz].
      * unfold le_str. now apply str_ltb_asym.
      * rewrite Forall_forall in F. auto.
    + constructor; auto. constructor; auto.
      rewrite Forall_forall in F |- *. intros z Hz. eapply le_str_trans; [exact E|auto].
Qed.

Lemma sort_strs_sorted l : StronglySorted le_str (sort_strs l).
Proof. induction l; cbn; [constructor|apply insert_sorted_sorted; auto]. Qed.

Lemma unique_strs_In y l : In y (unique_strs l) <-> In y l.
Proof.
  induction l as [|x l IH]; [tauto|].
  destruct l as [|z l]; [tauto|].
  change (unique_strs (x :: z :: l)) with (if str_eqb x z then unique_strs (z :: l) else x :: unique_strs (z :: l)).
  destruct (str_eqb_spec x z) as [->|E].
  - rewrite IH. cbn. intuition.
  - cbn [In] in *. rewrite IH. tauto.
Qed.

Lemma unique_strs_sorted l : StronglySorted le_str l -> strictly_sorted (unique_strs l).
Proof.
  induction l as [|x l IH]; intro S; [constructor|].
  inversion S as [|? ? S' F]; subst.
  destruct l as [|z l]; [repeat constructor|].
  change (unique_strs (x :: z :: l)) with (if str_eqb x z then unique_strs (z :: l) else x :: unique_strs (z :: l)).
  destruct (str_eqb_spec x z) as [->|E]; [apply IH; auto|].
  constructor; [apply IH; auto|].
  apply Forall_forall. intros y Hy. apply (proj1 (unique_strs_In y (z :: l))) in Hy.
  inversion F as [|? ? Hxz F']; subst.
  assert (str_ltb x z = true).
  { unfold le_str in Hxz. destruct (str_ltb_total x z) as [?|[?|?]]; auto; congruence. }
  destruct Hy as [<-|Hy]; auto.
  inversion S' as [|? ? S'' F'']; subst. rewrite Forall_forall in F''.
  specialize (F'' y Hy). unfold le_str in F''.
  destruct (str_ltb_total z y) as [<-|[?|?]]; auto; try congruence.
  eapply str_ltb_trans; eauto.
Qed.

Lemma functions_acc_spec H : wf_heap H -> forall n a acc,
  dbound n H a -> valid H a -> exists r, functions_acc n H a acc = Ok r /\
  forall x, In x r <-> In x acc \/ hasFunction_f n H a x = Ok true.
Proof.
  intro W. induction n as [|n IH]; intros a acc Hd Va; cbn in *; [tauto|].
  destruct (valid_tget H a Va) as [t E]. rewrite E.
  destruct (t_parent t) as [p|] eqn:Ep.
  - destruct (IH p (acc ++ akeys (t_fns t))) as (r & Er & Hr).
    + apply Hd. exists t; auto.
    + apply (wf_links H W a). exists t; auto.
    + exists r. split; auto. intro x. rewrite Hr, in_app_iff.
      destruct (ahas x (t_fns t)) eqn:Eh.
      * apply ahas_In in Eh. tauto.
      * split; [intros [[?|Hin]|?]; auto; apply ahas_In in Hin; congruence|intros [?|?]; auto].
  - eexists; split; eauto. intro x. rewrite in_app_iff.
    destruct (ahas x (t_fns t)) eqn:Eh.
    + apply ahas_In in Eh. tauto.
    + split; [intros [?|Hin]; auto; apply ahas_In in Hin; congruence|intros [?|?]; auto; congruence].
Qed.

Lemma fields_acc_spec H : wf_heap H -> forall n a acc,
  dbound n H a -> valid H a -> exists r, fields_acc n H a acc = Ok r /\
  forall x, In x r <-> In x acc \/ hasField_f n H a x = Ok true.
Proof.
  intro W. induction n as [|n IH]; intros a acc Hd Va; cbn in *; [tauto|].
  destruct (valid_tget H a Va) as [t E]. rewrite E.
  destruct (t_parent t) as [p|] eqn:Ep.
  - destruct (IH p (acc ++ akeys (t_fields t))) as (r & Er & Hr).
    + apply Hd. exists t; auto.
    + apply (wf_links H W a). exists t; auto.
    + exists r. split; auto. intro x. rewrite Hr, in_app_iff.
      destruct (ahas x (t_fields t)) eqn:Eh.
      * apply ahas_In in Eh. tauto.
      * split; [intros [[?|Hin]|?]; auto; apply ahas_In in Hin; congruence|intros [?|?]; auto].
  - eexists; split; eauto. intro x. rewrite in_app_iff.
    destruct (ahas x (t_fields t)) eqn:Eh.
    + apply ahas_In in Eh. tauto.
    + split; [intros [?|Hin]; auto; apply ahas_In in Hin; congruence|intros [?|?]; auto; congruence].
Qed.

Lemma functions_spec H a : wf_heap H -> valid H a ->
  exists l, functions H a = Ok l /\ strictly_sorted l /\ forall x, In x l <-> hasFunction H a x = Ok true.
Proof.
  intros W Va. destruct (functions_acc_spec H W _ a [] (wf_dbound H a W Va) Va) as (r & Er & Hr).
  unfold functions. rewrite Er. cbn. eexists; repeat split.
  - apply unique_strs_sorted, sort_strs_sorted.
  - rewrite unique_strs_In, sort_strs_In, Hr. cbn. tauto.
  - rewrite unique_strs_In, sort_strs_In, Hr. cbn. tauto.
Qed.

Lemma fields_spec H a : wf_heap H -> valid H a ->
  exists l, fields H a = Ok l /\ strictly_sorted l /\ forall x, In x l <-> hasField H a x = Ok true.
Proof.
  intros W Va. destruct (fields_acc_spec H W _ a [] (wf_dbound H a W Va) Va) as (r & Er & Hr).
  unfold fields. rewrite Er. cbn. eexists; repeat split.
  - apply unique_strs_sorted, sort_strs_sorted.
  - rewrite unique_strs_In, sort_strs_In, Hr. cbn. tauto.
  - rewrite unique_strs_In, sort_strs_In, Hr. cbn. tauto.
Qed.

Lemma strictly_sorted_ext l m : strictly_sorted l -> strictly_sorted m ->
  (forall x, In x l <-> In x m) -> l = m.
Proof.
  revert m; induction l as [|x l IH]; intros m S1 S2 Hx.
  - destruct m as [|y m]; auto. exfalso. apply (proj2 (Hx y)). now left.
  - destruct m as [|y m]; [exfalso; apply (proj1 (Hx x)); now left|].
    inversion S1 as [|? ? S1' F1]; subst. inversion S2 as [|? ? S2' F2]; subst.
    rewrite Forall_forall in F1, F2.
    assert (x = y).
    { destruct (proj1 (Hx x) (or_introl eq_refl)) as [?|Hi]; auto.
      destruct (proj2 (Hx y) (or_introl eq_refl)) as [?|Hj]; auto.
      pose proof (str_ltb_trans _ _ _ (F1 _ Hj) (F2 _ Hi)) as C.
      now rewrite str_ltb_irrefl in C. }
    subst y. f_equal. apply IH; auto. intro z. split; intro Hz.
    + destruct (proj1 (Hx z) (or_intror Hz)) as [<-|?]; auto.
      specialize (F1 _ Hz). now rewrite str_ltb_irrefl in F1.
    + destruct (proj2 (Hx z) (or_intror Hz)) as [<-|?]; auto.
      specialize (F2 _ Hz). now rewrite str_ltb_irrefl in F2.
Qed.

(* listing does not depend on map iteration order *)
Lemma Forall2_nth {A B} (R : A -> B -> Prop) l m : Forall2 R l m -> forall i,
  match nth_error l i, nth_error m i with
  | Some x, Some y => R x y
  | None, None => True
  | _, _ => False
  end.
Proof.
  induction 1; intros [|i]; cbn; auto. apply IHForall2.
Qed.

Lemma same_heap_tget H K a : same_heap_upto_order H K ->
  match tget H a, tget K a with
  | Some t, Some u => same_type_upto_order t u
  | None, None => True
  | _, _ => False
  end.
Proof. intros (F & _ & _). apply (Forall2_nth _ _ _ F). Qed.

Lemma perm_keys {V} (l m : list (str * V)) : Permutation l m -> forall x, In x (akeys l) <-> In x (akeys m).
Proof.
  intros P x. unfold akeys. split; intro Hx; apply in_map_iff in Hx as (y & <- & Hy); apply in_map.
  - eapply Permutation_in; eauto.
  - eapply Permutation_in; [apply Permutation_sym|]; eauto.
Qed.

Lemma functions_acc_upto H K : same_heap_upto_order H K -> forall n a acc acc',
  (forall x, In x acc <-> In x acc') ->
  match functions_acc n H a acc, functions_acc n K a acc' with
  | Ok r, Ok r' => forall x, In x r <-> In x r'
  | UB, UB | OutOfFuel, OutOfFuel => True
  | _, _ => False
  end.
Proof.
  intro S. induction n as [|n IH]; intros a acc acc' Ha; cbn; auto.
  pose proof (same_heap_tget H K a S) as T.
  destruct (tget H a) as [t|], (tget K a) as [u|]; try tauto.
  destruct T as (_ & Ep & _ & _ & _ & _ & Pf). rewrite <- Ep.
  assert (Hacc : forall x, In x (acc ++ akeys (t_fns t)) <-> In x (acc' ++ akeys (t_fns u))).
  { intro x. rewrite !in_app_iff, Ha, (perm_keys _ _ Pf). tauto. }
  destruct (t_parent t); [apply IH; auto|auto].
Qed.

Lemma fields_acc_upto H K : same_heap_upto_order H K -> forall n a acc acc',
  (forall x, In x acc <-> In x acc') ->
  match fields_acc n H a acc, fields_acc n K a acc' with
  | Ok r, Ok r' => forall x, In x r <-> In x r'
  | UB, UB | OutOfFuel, OutOfFuel => True
  | _, _ => False
  end.
Proof.
  intro S. induction n as [|n IH]; intros a acc acc' Ha; cbn; auto.
  pose proof (same_heap_tget H K a S) as T.
  destruct (tget H a) as [t|], (tget K a) as [u|]; try tauto.
  destruct T as (_ & Ep & _ & _ & _ & Pf & _). rewrite <- Ep.
  assert (Hacc : forall x, In x (acc ++ akeys (t_fields t)) <-> In x (acc' ++ akeys (t_fields u))).
  { intro x. rewrite !in_app_iff, Ha, (perm_keys _ _ Pf). tauto. }
  destruct (t_parent t); [apply IH; auto|auto].
Qed.

Lemma sorted_unique_ext l m : (forall x, In x l <-> In x m) ->
  unique_strs (sort_strs l) = unique_strs (sort_strs m).
Proof.
  intro Hx. apply strictly_sorted_ext; try apply unique_strs_sorted, sort_strs_sorted.
  intro x. rewrite !unique_strs_In, !sort_strs_In. auto.
Qed.

Lemma Forall2_len {A B} (R : A -> B -> Prop) l m : Forall2 R l m -> length l = length m.
Proof. induction 1; cbn; congruence. Qed.

Lemma functions_upto H K a : same_heap_upto_order H K -> functions H a = functions K a.
Proof.
  intro S. unfold functions.
  assert (Ef : fuel_of H = fuel_of K).
  { unfold fuel_of. destruct S as (F & _). apply Forall2_len in F. congruence. }
  rewrite <- Ef.
  pose proof (functions_acc_upto H K S (fuel_of H) a [] [] (fun x => iff_refl _)) as Hf.
  destruct (functions_acc (fuel_of H) H a []), (functions_acc (fuel_of H) K a []); try tauto; cbn.
  f_equal. apply sorted_unique_ext; auto.
Qed.

Lemma fields_upto H K a : same_heap_upto_order H K -> fields H a = fields K a.
Proof.
  intro S. unfold fields.
  assert (Ef : fuel_of H = fuel_of K).
  { unfold fuel_of. destruct S as (F & _). apply Forall2_len in F. congruence. }
  rewrite <- Ef.
  pose proof (fields_acc_upto H K S (fuel_of H) a [] [] (fun x => iff_refl _)) as Hf.
  destruct (fields_acc (fuel_of H) H a []), (fields_acc (fuel_of H) K a []); try tauto; cbn.
  f_equal. apply sorted_unique_ext; auto.
Qed.
