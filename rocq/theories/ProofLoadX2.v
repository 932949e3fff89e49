(* ProofLoadX2.v - a request always ends: with the type or with an exception. *)
From Coq Require String.
Import String.StringSyntax.
From Coq Require Import Relations.
From Verif Require Import Base ModelCore SpecCore ProofCore ProofMatch ProofCore2 ModelPlumb SpecPlumb ProofPlumb
  ModelLoad SpecLoad ProofLoad ProofLoad2 ModelLoadX ProofLoadX.
Local Open Scope outcome_scope.

Section Ends.
Context (P : program) (Sa : sane P).

Lemma stage_growx ts st st' : stage P (l_heap st) -> growx P ts (fun _ => False) st st' -> shaped P (l_heap st') -> stage P (l_heap st').
Proof.
  intros [Sh St] G Sh'. split; [exact Sh'|]. intros U d Ed.
  destruct (in_dec_n U (l_started st)) as [I|I].
  - rewrite (gx_same _ _ _ _ _ G) by auto. auto.
  - destruct (in_dec_n U (l_started st')) as [J|J].
    + destruct (gx_new _ _ _ _ _ G U J I) as [(d' & pre & post & E1 & E2 & E3 & _) _]. rewrite Ed in E1. injection E1 as <-. eauto.
    + rewrite (gx_rest _ _ _ _ _ G) by auto. auto.
Qed.

Definition ends (bound : nat) (g : lstate -> tptr -> lstate * ended) : Prop :=
  forall st T st' e, g st T = (st', e) -> length (todo P (l_started st)) < bound -> blank P st -> stage P (l_heap st) -> e <> Stuck.

Lemma each_ends bound g : good P g -> ends bound g -> forall ts st st' e, each_x g st ts = (st', e) ->
  length (todo P (l_started st)) < bound -> blank P st -> stage P (l_heap st) -> e <> Stuck.
Proof.
  intros G Pg. induction ts as [|t ts IH]; intros st st' e E L B St; cbn in E; [congruence|].
  destruct (g st t) as [st1 e1] eqn:E1. pose proof (Pg _ _ _ _ E1 L B St) as N1.
  destruct (G _ _ _ _ E1 B (proj1 St)) as [G1 S1].
  destruct e1; [|congruence|congruence]. eapply IH; eauto.
  - pose proof (todo_incl P _ _ (gx_incl _ _ _ _ _ G1)). lia.
  - eapply growx_blank; eauto.
  - eapply stage_growx; eauto.
Qed.

Lemma body_ends bound g T d : good P g -> ends bound g -> nth_error (p_decls P) T = Some d ->
  forall post pre st st' e, d_body d = pre ++ post -> In T (l_started st) ->
    tget (l_heap st) T = Some (lbuilt (d_id d) pre) ->
    length (todo P (l_started st)) < bound -> blank P st -> stage P (l_heap st) -> body_x g T st post = (st', e) -> e <> Stuck.
Proof.
  intros G Pg Ed. induction post as [|r post IH]; intros pre st st' e Eb IT Et L B St E; cbn [body_x] in E; [congruence|].
  destruct (each_x g st (asks r)) as [st1 e1] eqn:E1. pose proof (each_ends bound g G Pg _ _ _ _ E1 L B St) as N1.
  destruct (each_good P g G _ _ _ _ E1 B (proj1 St)) as [G1 S1].
  destruct e1; [|congruence|congruence].
  assert (IT1 : In T (l_started st1)) by (apply (gx_incl _ _ _ _ _ G1); exact IT).
  assert (Et1 : tget (l_heap st1) T = Some (lbuilt (d_id d) pre)) by (rewrite (gx_same _ _ _ _ _ G1); auto).
  assert (St1 : stage P (l_heap st1)) by (eapply stage_growx; eauto).
  destruct (lreg1_fine P Sa (l_heap st1) T d pre r post false St1 Ed Eb Et1) as [(H' & E2)|(_ & E2)]; [discriminate| |rewrite E2 in E; congruence].
  rewrite E2 in E. destruct (lreg1_effect _ _ _ _ _ E2 Et1) as [-> _].
  assert (VT : valid (l_heap st1) T) by (eapply tget_valid; eauto).
  eapply (IH (pre ++ [r])); [| | | | | |exact E]; cbn [l_heap l_started]; auto.
  - now rewrite <- app_assoc.
  - rewrite tget_set_eq by auto. now rewrite lbuilt_snoc.
  - pose proof (todo_incl P _ _ (gx_incl _ _ _ _ _ G1)). lia.
  - intros U u Eu NU. cbn. assert (NE : U <> T) by (intro X; subst U; contradiction).
    rewrite tget_set_neq by auto. apply (growx_blank P _ _ _ _ G1 B); auto.
  - split.
    + destruct S1 as (s1 & s2 & s3). unfold shaped. cbn. rewrite length_set_nth. auto.
    + intros U u Eu. destruct (Nat.eq_dec U T) as [->|NU].
      * rewrite Ed in Eu. injection Eu as <-. exists (pre ++ [r]), post. rewrite <- app_assoc. split; [exact Eb|].
        rewrite tget_set_eq by auto. now rewrite lbuilt_snoc.
      * rewrite tget_set_neq by auto. apply (proj2 St1). exact Eu.
Qed.

Lemma load_ends n : ends n (load_xf n P).
Proof.
  induction n as [|n IH]; intros st T st' e E L B St; [lia|]. cbn [load_xf] in E.
  destruct (existsb (Nat.eqb T) (l_started st)) eqn:Ex; [congruence|].
  destruct (nth_error (p_decls P) T) as [d|] eqn:Ed; [|congruence].
  assert (NI : ~ In T (l_started st)) by (intro I; apply mem_iff in I; congruence).
  eapply (body_ends n (load_xf n P) T d (load_xf_good P n) IH Ed (d_body d) []); [reflexivity| | | | | |exact E]; cbn [l_heap l_started]; auto.
  - now left.
  - rewrite (B T d Ed NI). reflexivity.
  - assert (V : T < length (p_decls P)) by (apply nth_error_Some; congruence).
    apply (Nat.lt_le_trans _ _ _ (todo_mark P T _ V Ex)). apply Nat.lt_succ_r. exact L.
  - intros U u Eu NU. apply B; auto. intro J. apply NU. now right.
Qed.

Lemma attempts_end ts : forall st st' log, blank P st -> stage P (l_heap st) -> attempts_from P st ts = (st', log) ->
  forall t e, In (t, e) log -> e <> Stuck.
Proof.
  induction ts as [|t ts IH]; intros st st' log B St E; cbn [attempts_from] in E; [injection E as <- <-; intros t e []|].
  destruct (load_x P st t) as [st1 e] eqn:E1. destruct (attempts_from P st1 ts) as [st2 l2] eqn:E2. injection E as <- <-.
  destruct (load_x_spec P _ _ _ _ E1 B (proj1 St)) as (G & S1 & _). intros u eu [I|I].
  - injection I as <- <-. apply (load_ends _ _ _ _ _ E1); auto. pose proof (todo_le P (l_started st)). lia.
  - eapply (IH st1); eauto.
    + eapply growx_blank; eauto.
    + eapply stage_growx; eauto.
Qed.
End Ends.

(* ---- the aborting library, compared ---- *)
Lemma all_fine P ts : forall st st', (exists log, attempts_from P st ts = (st', log) /\ Forall (fun x => snd x = Fine) log) <->
  load_each (load P) st ts = Ok st'.
Proof.
  induction ts as [|t ts IH]; intros st st'; cbn [attempts_from load_each].
  - split; [intros (log & E & _); congruence|]. intro E. exists []. split; [congruence|constructor].
  - destruct (load_x P st t) as [st1 e] eqn:E1. split.
    + intros (log & E & F). destruct (attempts_from P st1 ts) as [st2 l2] eqn:E2. injection E as <- <-. inversion F as [|? ? F1 F2]; subst.
      cbn in F1. subst e. apply (load_agree P) in E1. unfold load. rewrite E1. cbn. apply IH. eauto.
    + intro E. apply bind_Ok in E as (s & Ea & E). pose proof Ea as Eb. apply (load_agree P) in Eb. unfold load_x in E1. rewrite E1 in Eb. injection Eb as -> ->.
      apply IH in E as (log & E & F). rewrite E. exists ((t, Fine) :: log). split; [reflexivity|]. constructor; auto.
Qed.
