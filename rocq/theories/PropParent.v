(* PropParent.v - property C69: giving a type a parent. *)
From Coq Require String.
Import String.StringSyntax.
From Coq Require Import Relations.
From Verif Require Import Base ModelCore SpecCore ProofCore ProofMatch ExCore ProofCore2 ModelPlumb ProofPlumb.
Local Open Scope outcome_scope.

(* src/dsl/basics.h 16-28: reflectParent, i.e. Type::parent (src/type.h 28),
   unchecked *)
Definition type_parent (H : heap) (T P : tptr) : outcome heap :=
  match tget H T with
  | None => UB
  | Some t => Ok (set_type H T (setParent t (Some P)))
  end.

(* ---- specification: b can be reached from a over parent and pointee links ---- *)
Definition leads_to (H : heap) : tptr -> tptr -> Prop := clos_refl_trans_1n tptr (link H).

(* ---- proofs ---- *)
Section Parent.
Context (H H' : heap) (T P : tptr) (t : typerec)
  (W : wf_heap H) (Et : tget H T = Some t) (VP : valid H P) (NL : ~ leads_to H P T)
           (EH : H' = set_type H T (setParent t (Some P))).

Lemma par_valid_T : valid H T.
Proof. unfold valid. apply nth_error_Some. unfold tget in Et. congruence. Qed.
Lemma par_tget x : tget H' x = if Nat.eqb x T then Some (setParent t (Some P)) else tget H x.
Proof. rewrite EH. apply nth_set_nth. exact par_valid_T. Qed.
Lemma par_valid x : valid H' x <-> valid H x.
Proof. rewrite EH. unfold valid, set_type; cbn. rewrite length_set_nth. tauto. Qed.
Lemma par_fuel : fuel_of H' = fuel_of H.
Proof. rewrite EH. unfold fuel_of, set_type; cbn. now rewrite length_set_nth. Qed.
Lemma par_link a b : link H' a b -> link H a b \/ (a = T /\ b = P).
Proof.
  intros (u & Eu & Hu). rewrite par_tget in Eu. destruct (Nat.eqb_spec a T) as [->|N].
  - injection Eu as <-. cbn in Hu. destruct Hu as [X|X]; [injection X as <-; auto|]. left. exists t. auto.
  - left. exists u. auto.
Qed.

Lemma leads_dec (rank : tptr -> nat) : (forall a p, link H a p -> rank p < rank a) ->
  forall n a, rank a < n -> {leads_to H a T} + {~ leads_to H a T}.
Proof.
  intros Hr. induction n as [|n IH]; intros a L; [lia|].
  destruct (Nat.eq_dec a T) as [->|Na]; [left; constructor|].
  destruct (tget H a) as [u|] eqn:Eu.
  2:{ right. intro X. inversion X as [|y z (v & Ev & _) Y]; subst; congruence. }
  assert (D : forall o, (forall p, o = Some p -> link H a p) ->
    {exists p, o = Some p /\ leads_to H p T} + {~ exists p, o = Some p /\ leads_to H p T}).
  { intros [p|] Hp; [|right; intros (p & X & _); discriminate].
    destruct (IH p) as [X|X]; [specialize (Hr a p (Hp p eq_refl)); lia|left; eauto|].
    right. intros (q & Eq & Y). injection Eq as <-. contradiction. }
  destruct (D (t_parent u)) as [X|X]; [intros p Ep; exists u; auto| |].
  { left. destruct X as (p & Ep & X). econstructor; [|exact X]. exists u. auto. }
  destruct (D (t_pointee u)) as [Y|Y]; [intros p Ep; exists u; auto| |].
  { left. destruct Y as (p & Ep & Y). econstructor; [|exact Y]. exists u. auto. }
  right. intro Z. inversion Z as [|y z (v & Ev & Hv) K]; subst; [congruence|].
  rewrite Eu in Ev. injection Ev as <-. destruct Hv as [Hv|Hv]; [apply X|apply Y]; eauto.
Qed.

Lemma par_wf : wf_heap H'.
Proof.
  destruct (wf_acyclic H W) as [rank Hr]. constructor.
  - intros a p L. apply par_valid. apply par_link in L as [L|[-> ->]]; auto. exact (wf_links H W a p L).
  - intros a (u & Eu & Hu). rewrite par_tget in Eu. destruct (Nat.eqb_spec a T) as [->|N].
    + injection Eu as <-. destruct (wf_ptr H W T) as (k & p & v & Ev & Hv & Ek & Ep); [exists t; auto|].
      rewrite Et in Ev. injection Ev as <-. exists k, p, (setParent t (Some P)). rewrite par_tget, Nat.eqb_refl. auto.
    + destruct (wf_ptr H W a) as (k & p & v & Ev & Hv & Ek & Ep); [exists u; auto|].
      exists k, p, v. rewrite par_tget. apply Nat.eqb_neq in N. rewrite N. auto.
  - exists (fun x => rank x + if leads_dec rank Hr (S (rank x)) x (le_n _) then S (rank P) else 0).
    intros a p L. apply par_link in L as [L|[-> ->]].
    + pose proof (Hr a p L) as Hl. destruct (leads_dec rank Hr (S (rank p)) p _) as [X|X]; [|lia].
      destruct (leads_dec rank Hr (S (rank a)) a _) as [Y|Y]; [lia|]. exfalso. apply Y. econstructor; eauto.
    + destruct (leads_dec rank Hr (S (rank P)) P _) as [X|X]; [contradiction|].
      destruct (leads_dec rank Hr (S (rank T)) T _) as [Y|Y]; [lia|]. exfalso. apply Y. constructor.
  - apply par_valid. rewrite EH. exact (wf_void H W).
  - apply par_valid. rewrite EH. exact (wf_value H W).
Qed.

Lemma par_not_T a : ~ leads_to H a T -> tget H' a = tget H a.
Proof. intro N. rewrite par_tget. destruct (Nat.eqb_spec a T) as [->|]; auto. exfalso. apply N. constructor. Qed.
Lemma par_not_next a u p : ~ leads_to H a T -> tget H a = Some u -> t_parent u = Some p \/ t_pointee u = Some p -> ~ leads_to H p T.
Proof. intros N E L X. apply N. econstructor; [|exact X]. exists u. auto. Qed.
Definition same_links (u v : typerec) := t_traits u = t_traits v /\ t_pointer u = t_pointer v /\ t_pointee u = t_pointee v.
Lemma par_child n : forall a b, ~ leads_to H a T -> isChildOf_f n H' a b = isChildOf_f n H a b.
Proof.
  induction n as [|n IH]; intros a b N; cbn [isChildOf_f]; [reflexivity|]. destruct (Nat.eqb a b); [reflexivity|].
  rewrite (par_not_T a N). destruct (tget H a) as [u|] eqn:Eu; [|reflexivity].
  assert (B : match tget H' b, tget H b with Some x, Some y => same_links x y | None, None => True | _, _ => False end).
  { rewrite par_tget. destruct (Nat.eqb_spec b T) as [->|Nb]; [rewrite Et; repeat split|]. destruct (tget H b); repeat split. }
  destruct (tget H' b) as [x|], (tget H b) as [y|]; try contradiction; [|reflexivity].
  destruct B as (B1 & B2 & B3). unfold isPointer, is_trait. rewrite B1, B2, B3.
  destruct (_ && _)%bool.
  - destruct (negb _); [reflexivity|]. destruct (t_pointee u) as [p|] eqn:Ep; [|reflexivity]. destruct (t_pointee y) as [q|]; [|reflexivity].
    apply IH. eapply par_not_next; eauto.
  - destruct (t_parent u) as [p|] eqn:Ep; [|reflexivity]. apply IH. eapply par_not_next; eauto.
Qed.
Lemma par_function n : forall a name, ~ leads_to H a T -> function_f n H' a name = function_f n H a name.
Proof.
  induction n as [|n IH]; intros a name N; cbn [function_f]; [reflexivity|]. rewrite (par_not_T a N).
  destruct (tget H a) as [u|] eqn:Eu; [|reflexivity]. destruct (afind name (t_fns u)); [reflexivity|].
  destruct (t_parent u) as [p|] eqn:Ep; [|reflexivity]. apply IH. eapply par_not_next; eauto.
Qed.
Lemma par_field n : forall a name, ~ leads_to H a T -> field_f n H' a name = field_f n H a name.
Proof.
  induction n as [|n IH]; intros a name N; cbn [field_f]; [reflexivity|]. rewrite (par_not_T a N).
  destruct (tget H a) as [u|] eqn:Eu; [|reflexivity]. destruct (afind name (t_fields u)); [reflexivity|].
  destruct (t_parent u) as [p|] eqn:Ep; [|reflexivity]. apply IH. eapply par_not_next; eauto.
Qed.
Lemma child_fuel n : forall a b r, isChildOf_f n H a b = Ok r -> isChildOf_f (S n) H a b = Ok r.
Proof.
  induction n as [|n IH]; intros a b r E; [discriminate|]. cbn [isChildOf_f] in E. remember (S n) as m eqn:Em. cbn [isChildOf_f].
  destruct (Nat.eqb a b); auto. destruct (tget H a), (tget H b); auto. destruct (_ && _)%bool.
  - destruct (negb _); auto. destruct (t_pointee t0); auto. destruct (t_pointee t1); auto. 
  - destruct (t_parent t0); auto. 
Qed.
Lemma fun_fuel n : forall a name r, function_f n H a name = r -> r <> OutOfFuel -> function_f (S n) H a name = r.
Proof.
  induction n as [|n IH]; intros a name r E Nr; [cbn in E; congruence|]. cbn [function_f] in E. remember (S n) as m eqn:Em. cbn [function_f].
  destruct (tget H a); auto. destruct (afind name (t_fns t0)); auto. destruct (t_parent t0); auto.
Qed.
Lemma field_fuel n : forall a name r, field_f n H a name = r -> r <> OutOfFuel -> field_f (S n) H a name = r.
Proof.
  induction n as [|n IH]; intros a name r E Nr; [cbn in E; congruence|]. cbn [field_f] in E. remember (S n) as m eqn:Em. cbn [field_f].
  destruct (tget H a); auto. destruct (afind name (t_fields t0)); auto. destruct (t_parent t0); auto.
Qed.
Lemma par_dbound : dbound (length (h_types H)) H' P.
Proof.
  pose proof (wf_dbound H' T par_wf (proj2 (par_valid T) par_valid_T)) as D. rewrite par_fuel in D. unfold fuel_of in D. cbn [dbound] in D.
  apply D. exists (setParent t (Some P)). rewrite par_tget, Nat.eqb_refl. auto.
Qed.
Lemma par_T_function name : function H' T name = match afind name (t_fns t) with Some os => Ok os | None => function H P name end.
Proof.
  unfold function. rewrite par_fuel. unfold fuel_of. remember (length (h_types H)) as n eqn:En. cbn [function_f].
  rewrite par_tget, Nat.eqb_refl. cbn [setParent t_fns t_parent]. destruct (afind name (t_fns t)); [reflexivity|].
  rewrite (par_function _ P name NL). symmetry. apply fun_fuel; [reflexivity|].
  rewrite <- (par_function _ P name NL).
  destruct (function_f_spec H' par_wf n P name) as [(x & -> & _)|[-> _]]; try discriminate.
  - rewrite En. apply par_dbound.
  - now apply par_valid.
Qed.
Lemma par_T_field name : field_ H' T name = match afind name (t_fields t) with Some f => Ok f | None => field_ H P name end.
Proof.
  unfold field_. rewrite par_fuel. unfold fuel_of. remember (length (h_types H)) as n eqn:En. cbn [field_f].
  rewrite par_tget, Nat.eqb_refl. cbn [setParent t_fields t_parent]. destruct (afind name (t_fields t)); [reflexivity|].
  rewrite (par_field _ P name NL). symmetry. apply field_fuel; [reflexivity|].
  rewrite <- (par_field _ P name NL).
  destruct (field_f_spec H' par_wf n P name) as [(x & -> & _)|[-> _]]; try discriminate.
  - rewrite En. apply par_dbound.
  - now apply par_valid.
Qed.
Lemma par_T_child b : valid H b -> ~ is_ptr H T -> b <> T -> isChildOf H' T b = isChildOf H P b.
Proof.
  intros Vb NP Nb. unfold isChildOf. rewrite par_fuel. unfold fuel_of. remember (length (h_types H)) as n eqn:En. 
  destruct (isChildOf_f_total H' par_wf n P b) as [r Er].
  { rewrite En. apply par_dbound. } { now apply par_valid. } { now apply par_valid. }
  pose proof Er as Er'. rewrite (par_child n P b NL) in Er'. apply child_fuel in Er'. rewrite Er'.
  cbn [isChildOf_f]. destruct (Nat.eqb_spec T b); [congruence|].
  rewrite par_tget, Nat.eqb_refl. destruct (valid_tget H' b (proj2 (par_valid b) Vb)) as [u Eu]. rewrite Eu.
  unfold isPointer at 1, is_trait. cbn [setParent t_traits t_parent].
  destruct (smem (lit "pointer") (t_traits t)) eqn:Es; cbn [andb]; [|exact Er].
  exfalso. apply NP. exists t. split; auto. now apply smem_In.
Qed.
End Parent.

(* ===== C69 ===== *)
Theorem c69_graph_stays_sound : forall H H' T P, wf_heap H -> valid H P -> ~ leads_to H P T ->
  type_parent H T P = Ok H' -> wf_heap H'.
Proof.
  intros H H' T P W V N E. unfold type_parent in E. destruct (tget H T) as [t|] eqn:Et; [|discriminate]. injection E as <-.
  eapply par_wf; eauto.
Qed.
Print Assumptions c69_graph_stays_sound.

(* the type is then below its parent and whatever the parent is below, and
   nothing else *)
Theorem c69_below_its_parent : forall H H' T P b, wf_heap H -> valid H P -> valid H b -> ~ leads_to H P T -> ~ is_ptr H T ->
  type_parent H T P = Ok H' ->
  (isChildOf H' T b = Ok true <-> b = T \/ isChildOf H P b = Ok true).
Proof.
  intros H H' T P b W V Vb N NP E. unfold type_parent in E. destruct (tget H T) as [t|] eqn:Et; [|discriminate]. injection E as E.
  destruct (Nat.eq_dec b T) as [->|Nb].
  - split; [auto|]. intros _. unfold isChildOf, fuel_of. cbn [isChildOf_f]. now rewrite Nat.eqb_refl.
  - rewrite (par_T_child H H' T P t W Et V N (eq_sym E) b Vb NP Nb). split; [auto|]. intros [X|X]; [contradiction|exact X].
Qed.
Print Assumptions c69_below_its_parent.

(* a member the type does not declare itself is the parent's *)
Theorem c69_members : forall H H' T P t name, wf_heap H -> valid H P -> ~ leads_to H P T -> tget H T = Some t ->
  type_parent H T P = Ok H' ->
  (function H' T name = match afind name (t_fns t) with Some os => Ok os | None => function H P name end) /\
  (field_ H' T name = match afind name (t_fields t) with Some f => Ok f | None => field_ H P name end).
Proof.
  intros H H' T P t name W V N Et E. unfold type_parent in E. rewrite Et in E. injection E as E.
  split; [eapply par_T_function|eapply par_T_field]; eauto.
Qed.
Print Assumptions c69_members.

(* nothing changes for a type the given type is not above of *)
Theorem c69_others : forall H H' T P a b name, wf_heap H -> ~ leads_to H a T -> type_parent H T P = Ok H' ->
  isChildOf H' a b = isChildOf H a b /\ function H' a name = function H a name /\ field_ H' a name = field_ H a name.
Proof.
  intros H H' T P a b name W N E. unfold type_parent in E. destruct (tget H T) as [t|] eqn:Et; [|discriminate]. injection E as E.
  unfold isChildOf, function, field_. rewrite (par_fuel H H' T P t (eq_sym E)).
  split; [eapply par_child|split; [eapply par_function|eapply par_field]]; eauto.
Qed.
Print Assumptions c69_others.

(* Str : Base *)
Example c69_ex : ~ leads_to exHeap 3 7 /\ valid exHeap 3 /\ ~ is_ptr exHeap 7 /\ exists H', type_parent exHeap 7 3 = Ok H' /\
  isChildOf exHeap 7 3 = Ok false /\ isChildOf H' 7 3 = Ok true /\ (exists os, function H' 7 (lit "foo") = Ok os /\ map f_code os = [2]).
Proof.
  split.
  { assert (L : forall x y, link exHeap x y -> y < x).
    { intros x y (u & Eu & Hu). destruct (links_ok_nth (h_types exHeap) 0 x u eq_refl Eu) as [A _]. exact (A y Hu). }
    intro X. inversion X as [|y z L1 Y]; subst. apply L in L1.
    assert (forall x y, leads_to exHeap x y -> y <= x).
    { clear -L. induction 1; auto. apply L in H. lia. }
    apply H in Y. lia. }
  split; [unfold valid; cbn; lia|]. split; [intros (u & Eu & Hu); injection Eu as <-; destruct Hu|].
  eexists. split; [reflexivity|]. split; [reflexivity|]. split; [reflexivity|]. eexists. split; reflexivity.
Qed.

(* False of the code without the proviso: the parent may already be below the
   type, even the type itself (std::is_base_of<T, T> holds), and then a query
   never ends *)
Theorem c69_own_parent_refuted : exists H T H' b, wf_heap H /\ valid H T /\ valid H b /\ type_parent H T T = Ok H' /\
  forall n, isChildOf_f n H' T b = OutOfFuel /\ function_f n H' T (lit "nope") = OutOfFuel.
Proof.
  exists exHeap, 3. eexists. exists 2. split; [apply exHeap_wf|]. split; [unfold valid; cbn; lia|]. split; [unfold valid; cbn; lia|].
  split; [reflexivity|]. induction n as [|n [IH1 IH2]]; split; try reflexivity; [exact IH1|exact IH2].
Qed.
Print Assumptions c69_own_parent_refuted.
