(* ProofTraits.v - write-once traits and the member name space of a type *)
From Coq Require String.
Import String.StringSyntax.
From Verif Require Import Base ModelCore ModelTraits SpecCore ProofCore ProofMatch.

Section T.
Context {V : Type}.
Implicit Types T : traits V.

Lemma addTrait_spec T n v :
  (In n (map fst T) -> Traits_addTrait T n v = Abort) /\
  (~ In n (map fst T) -> exists T', Traits_addTrait T n v = Ok T' /\
     Traits_getValue T' n = Ok v /\
     forall m, m <> n -> Traits_getValue T' m = Traits_getValue T m /\ Traits_is T' m = Traits_is T m).
Proof.
  unfold Traits_addTrait, Traits_getValue, Traits_is. split; intro Hn.
  - apply ahas_In in Hn. now rewrite Hn.
  - destruct (ahas n T) eqn:E; [apply ahas_In in E; contradiction|].
    eexists; split; [reflexivity|]. rewrite afind_aset_same. split; auto.
    intros m Hm. unfold ahas. rewrite !afind_aset_other by auto. auto.
Qed.

Lemma traits_apply_keep T ops n v : Traits_getValue T n = Ok v ->
  Traits_getValue (fold_left Traits_apply ops T) n = Ok v.
Proof.
  revert T; induction ops as [|[m w] ops IH]; intros T E; cbn [fold_left]; auto.
  apply IH. unfold Traits_apply. cbn [fst snd].
  destruct (ahas m T) eqn:Em.
  - destruct (addTrait_spec T m w) as [A _]. rewrite A; [auto|now apply ahas_In].
  - assert (Hm : ~ In m (map fst T)) by (intro C; apply ahas_In in C; congruence).
    destruct (addTrait_spec T m w) as [_ B]. destruct (B Hm) as (T' & -> & _ & C).
    destruct (str_eqb m n) eqn:Emn.
    + apply str_eqb_eq in Emn. subst m. exfalso. apply Hm.
      unfold Traits_getValue in E. destruct (afind n T) eqn:Ef; [|discriminate].
      apply afind_In in Ef. apply in_map_iff. exists (n, v0). auto.
    + apply str_eqb_neq in Emn. rewrite (proj1 (C n (not_eq_sym Emn))). auto.
Qed.

Lemma traits_is_history ops n :
  Traits_is (fold_left Traits_apply ops ([] : traits V)) n = true <-> In n (map fst ops).
Proof.
  assert (G : forall T, Traits_is (fold_left Traits_apply ops T) n = true <-> In n (map fst T) \/ In n (map fst ops)).
  { induction ops as [|[m w] ops IH]; intro T; cbn [fold_left map].
    - unfold Traits_is. rewrite ahas_In. cbn. intuition.
    - rewrite IH. unfold Traits_apply. cbn [fst snd].
      destruct (ahas m T) eqn:Em.
      + unfold Traits_addTrait. rewrite Em. apply ahas_In in Em. cbn. split; [tauto|].
        intros [?|[<-|?]]; auto.
      + unfold Traits_addTrait. rewrite Em.
        assert (K : In n (map fst (aset m w T)) <-> n = m \/ In n (map fst T)).
        { change (map fst (aset m w T)) with (akeys (aset m w T)). rewrite <- ahas_In.
          unfold ahas. destruct (str_eqb_spec n m) as [->|Hne].
          - rewrite afind_aset_same. tauto.
          - rewrite afind_aset_other by auto. fold (ahas n T). rewrite ahas_In. unfold akeys. tauto. }
        rewrite K. cbn. intuition. }
  rewrite G. cbn. tauto.
Qed.

(* the first value given to a trait is the one it keeps *)
Lemma traits_first_wins ops1 n v ops2 : ~ In n (map fst ops1) ->
  Traits_getValue (fold_left Traits_apply (ops1 ++ (n, v) :: ops2) ([] : traits V)) n = Ok v.
Proof.
  intro Hn. rewrite fold_left_app. cbn [fold_left]. apply traits_apply_keep.
  set (T := fold_left Traits_apply ops1 []).
  unfold Traits_apply. cbn [fst snd].
  destruct (addTrait_spec T n v) as [_ B]. destruct B as (T' & -> & E & _); auto.
  intro C. apply ahas_In in C. apply traits_is_history in C. contradiction.
Qed.

Lemma traits_NoDup ops : NoDup (Traits_traits (fold_left Traits_apply ops ([] : traits V))).
Proof.
  assert (G : forall T, NoDup (akeys T) -> NoDup (Traits_traits (fold_left Traits_apply ops T))).
  { induction ops as [|[m w] ops IH]; intros T N; cbn [fold_left]; auto.
    apply IH. unfold Traits_apply, Traits_addTrait. cbn [fst snd]. destruct (ahas m T); cbn; auto.
    now apply NoDup_akeys_aset. }
  apply G. constructor.
Qed.
End T.

(* a type becomes a pointer at most once *)
Lemma setPointer_once t k p t' : setPointer t k p = Ok t' ->
  isPointer t = false /\ isPointer t' = true /\ t_pointer t' = k /\ t_pointee t' = p /\
  forall k' p', setPointer t' k' p' = Abort.
Proof.
  unfold setPointer. destruct (isPointer t) eqn:E; [discriminate|].
  intro X. apply bind_Ok in X as (tr & Et & X). injection X as <-.
  assert (P : isPointer (Type_ (t_id t) (t_parent t) tr k p (t_fields t) (t_fns t)) = true).
  { unfold isPointer, is_trait. cbn [t_traits]. unfold addTrait in Et.
    destruct (smem _ _); [discriminate|]. injection Et as <-.
    apply smem_In. apply in_app_iff. right. now left. }
  repeat split; auto. intros k' p'. now rewrite P.
Qed.

(* ---------- members ---------- *)

Lemma addField_spec t n f :
  (In n (map fst (t_fields t)) \/ In n (map fst (t_fns t)) -> addField t n f = Abort) /\
  (~ In n (map fst (t_fields t)) -> ~ In n (map fst (t_fns t)) ->
     exists t', addField t n f = Ok t' /\ t_fns t' = t_fns t /\ afind n (t_fields t') = Some f /\
       forall m, m <> n -> afind m (t_fields t') = afind m (t_fields t)).
Proof.
  unfold addField. split.
  - intros [Hf|Hf]; destruct (In_akeys_afind _ _ Hf) as [x E].
    + destruct (afind n (t_fns t)); auto. now rewrite E.
    + now rewrite E.
  - intros N1 N2. apply afind_None in N1. apply afind_None in N2. rewrite N1, N2.
    eexists; split; [reflexivity|]. split; [reflexivity|]. cbn [t_fields set_fields]. split.
    + rewrite afind_app, N1. cbn. now rewrite str_eqb_refl.
    + intros m Hm. rewrite afind_app. destruct (afind m (t_fields t)); auto. cbn.
      destruct (str_eqb_spec m n); congruence.
Qed.

Lemma addFunction_spec H t n f t' : addFunction H t n f = Ok t' ->
  ~ In n (map fst (t_fields t)) /\ t_fields t' = t_fields t /\
  (exists os, afind n (t_fns t') = Some (os ++ [f]) /\
     (afind n (t_fns t) = Some os \/ (afind n (t_fns t) = None /\ os = []))) /\
  forall m, m <> n -> afind m (t_fns t') = afind m (t_fns t).
Proof.
  unfold addFunction. destruct (afind n (t_fields t)) eqn:Ef; [discriminate|].
  intro E. apply bind_Ok in E as (os & Eo & E). injection E as <-.
  apply overloads_add_app in Eo. apply afind_None in Ef. split; auto. split; [reflexivity|].
  cbn [t_fns set_fns]. split.
  - rewrite afind_aset_same. destruct (afind n (t_fns t)) as [os0|]; subst os.
    + exists os0. auto.
    + exists []. auto.
  - intros m Hm. now rewrite afind_aset_other.
Qed.

Lemma addFunction_field_abort H t n f : In n (map fst (t_fields t)) -> addFunction H t n f = Abort.
Proof. intro Hf. unfold addFunction. destruct (In_akeys_afind _ _ Hf) as [x ->]. reflexivity. Qed.

Lemma member_apply_ok t op : members_ok t -> members_ok (member_apply t op).
Proof.
  intros (D & N1 & N2). unfold member_apply, member_call. destruct op as [n f|H n f].
  - destruct (addField t n f) eqn:E; try (repeat split; assumption).
    unfold addField in E. destruct (afind n (t_fns t)) eqn:E1; [discriminate|].
    destruct (afind n (t_fields t)) eqn:E2; [discriminate|]. injection E as <-.
    apply afind_None in E1. apply afind_None in E2. unfold akeys in *.
    repeat split; cbn [t_fields t_fns set_fields]; auto.
    + intros m Hm Hm'. rewrite map_app, in_app_iff in Hm. cbn in Hm.
      destruct Hm as [Hm|[<-|[]]]; eauto.
    + rewrite map_app. cbn. apply NoDup_rev in N1.
      rewrite <- (rev_involutive (_ ++ _)). apply NoDup_rev. rewrite rev_app_distr. cbn.
      constructor; auto. now rewrite <- in_rev.
  - destruct (addFunction H t n f) eqn:E; try (repeat split; assumption).
    unfold addFunction in E. destruct (afind n (t_fields t)) eqn:E1; [discriminate|].
    apply bind_Ok in E as (os & _ & E). injection E as <-. apply afind_None in E1.
    repeat split; cbn [t_fields t_fns set_fns]; auto.
    + intros m Hm Hm'. destruct (str_eqb_spec m n) as [->|Hne]; [contradiction|].
      apply (D m); auto. apply ahas_In in Hm'. apply ahas_In. unfold ahas in *.
      rewrite afind_aset_other in Hm' by auto. auto.
    + now apply NoDup_akeys_aset.
Qed.

Lemma members_history id ops : members_ok (fold_left member_apply ops (newType id)).
Proof.
  assert (G : forall t, members_ok t -> members_ok (fold_left member_apply ops t)).
  { induction ops as [|op ops IH]; intros t M; cbn [fold_left]; auto.
    apply IH. now apply member_apply_ok. }
  apply G. repeat split; cbn; try constructor; auto.
Qed.

Lemma field_kept t ops n f : afind n (t_fields t) = Some f ->
  afind n (t_fields (fold_left member_apply ops t)) = Some f.
Proof.
  revert t; induction ops as [|op ops IH]; intros t E; cbn [fold_left]; auto.
  apply IH. unfold member_apply, member_call. destruct op as [m g|H m g].
  - destruct (addField t m g) as [t'| | | |] eqn:Ea; auto.
    unfold addField in Ea. destruct (afind m (t_fns t)); [discriminate|].
    destruct (afind m (t_fields t)); [discriminate|]. injection Ea as <-.
    cbn. now rewrite afind_app, E.
  - destruct (addFunction H t m g) as [t'| | | |] eqn:Ea; auto.
    apply addFunction_spec in Ea as (_ & -> & _). auto.
Qed.

Lemma function_kept t ops n os : afind n (t_fns t) = Some os ->
  exists os', afind n (t_fns (fold_left member_apply ops t)) = Some (os ++ os').
Proof.
  revert t os; induction ops as [|op ops IH]; intros t os E; cbn [fold_left].
  - exists []. now rewrite app_nil_r.
  - assert (S : exists os1, afind n (t_fns (member_apply t op)) = Some (os ++ os1)).
    { unfold member_apply, member_call. destruct op as [m g|H m g].
      - exists []. rewrite app_nil_r. destruct (addField t m g) as [t'| | | |] eqn:Ea; auto.
        unfold addField in Ea. destruct (afind m (t_fns t)); [discriminate|].
        destruct (afind m (t_fields t)); [discriminate|]. injection Ea as <-. auto.
      - destruct (addFunction H t m g) as [t'| | | |] eqn:Ea;
          try (exists []; rewrite app_nil_r; exact E).
        apply addFunction_spec in Ea as (_ & _ & (os0 & E1 & E2) & E3).
        destruct (str_eqb_spec n m) as [->|Hne].
        + exists [g]. destruct E2 as [E2|[E2 _]]; congruence.
        + exists []. rewrite app_nil_r. now rewrite E3. }
    destruct S as (os1 & S). destruct (IH _ _ S) as (os2 & S'). exists (os1 ++ os2).
    now rewrite app_assoc.
Qed.
