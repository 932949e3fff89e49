(* ProofLoadX.v - errors during a load, caught by the program. *)
From Coq Require String.
Import String.StringSyntax.
From Coq Require Import Relations.
From Verif Require Import Base ModelCore SpecCore ProofCore ProofMatch ProofCore2 ModelPlumb SpecPlumb ProofPlumb
  ModelLoad SpecLoad ProofLoad ProofLoad2 ModelLoadX.
Local Open Scope outcome_scope.

(* ---- the requests that end well are those of ModelLoad ---- *)
Definition agree (g : lstate -> tptr -> lstate * ended) (g' : lstate -> tptr -> outcome lstate) : Prop :=
  forall st t st', g st t = (st', Fine) <-> g' st t = Ok st'.
Lemma each_agree g g' : agree g g' -> forall ts st st', each_x g st ts = (st', Fine) <-> load_each g' st ts = Ok st'.
Proof.
  intro A. induction ts as [|t ts IH]; intros st st'; cbn; [split; intro E; congruence|].
  destruct (g st t) as [st1 e] eqn:E. destruct e.
  - apply A in E as E'. rewrite E'. cbn. apply IH.
  - split; [discriminate|]. intro X. apply bind_Ok in X as (s & X & _). apply A in X. congruence.
  - split; [discriminate|]. intro X. apply bind_Ok in X as (s & X & _). apply A in X. congruence.
Qed.
Lemma body_agree g g' T : agree g g' -> forall rs st st', body_x g T st rs = (st', Fine) <-> run_body g' T st rs = Ok st'.
Proof.
  intro A. induction rs as [|r rs IH]; intros st st'; cbn [body_x run_body]; [split; intro E; congruence|].
  destruct (each_x g st (asks r)) as [st1 e] eqn:E. destruct e.
  - apply (each_agree g g' A) in E as E'. rewrite E'. cbn [bind].
    destruct (lreg1 (l_heap st1) T r); cbn [bind]; try (split; discriminate). apply IH.
  - split; [discriminate|]. intro X. apply bind_Ok in X as (s & X & _). apply (each_agree g g' A) in X. congruence.
  - split; [discriminate|]. intro X. apply bind_Ok in X as (s & X & _). apply (each_agree g g' A) in X. congruence.
Qed.
Lemma load_agree P n : agree (load_xf n P) (load_f n P).
Proof.
  induction n as [|n IH]; intros st t st'; cbn [load_xf load_f]; [split; discriminate|].
  destruct (existsb _ _); [split; intro E; congruence|]. destruct (nth_error _ _); [|split; discriminate].
  now apply body_agree.
Qed.

Section LoadX.
Context (P : program).

(* the object of U holds the first lines of its body *)
Definition begun (H : heap) (U : tptr) : Prop := exists d pre post, nth_error (p_decls P) U = Some d /\
  d_body d = pre ++ post /\ tget H U = Some (lbuilt (d_id d) pre) /\ fields_ok pre (lbuilt (d_id d) pre).
Definition half (H : heap) (U : tptr) : Prop := exists d pre r post, nth_error (p_decls P) U = Some d /\
  d_body d = pre ++ r :: post /\ tget H U = Some (lbuilt (d_id d) pre) /\ fields_ok pre (lbuilt (d_id d) pre).

Record growx (ts : list tptr) (X : tptr -> Prop) (st st' : lstate) : Prop := {
  gx_incl : incl (l_started st) (l_started st');
  gx_same : forall U, In U (l_started st) -> ~ X U -> tget (l_heap st') U = tget (l_heap st) U;
  gx_new : forall U, In U (l_started st') -> ~ In U (l_started st) -> begun (l_heap st') U /\ exists V, In V ts /\ needs P V U;
  gx_rest : forall U, ~ In U (l_started st') -> tget (l_heap st') U = tget (l_heap st) U }.

Lemma growx_refl ts X st : growx ts X st st.
Proof. constructor; auto. - apply incl_refl. - intros U A B. contradiction. Qed.
Lemma begun_eq H H' U : tget H' U = tget H U -> begun H U -> begun H' U.
Proof. intros E (d & pre & post & A & B & C & D). exists d, pre, post. rewrite E. auto. Qed.
Lemma growx_trans ts ts' (X : tptr -> Prop) st st1 st2 : (forall U, X U -> In U (l_started st)) ->
  growx ts X st st1 -> growx ts' X st1 st2 -> growx (ts ++ ts') X st st2.
Proof.
  intros HX G G'. constructor.
  - eapply incl_tran; [apply (gx_incl _ _ _ _ G)|apply (gx_incl _ _ _ _ G')].
  - intros U I N. rewrite (gx_same _ _ _ _ G') by (auto; apply (gx_incl _ _ _ _ G); auto). apply (gx_same _ _ _ _ G); auto.
  - intros U I N. destruct (in_dec_n U (l_started st1)) as [J|J].
    + destruct (gx_new _ _ _ _ G U J N) as [B (V & IV & NV)]. split.
      * apply (begun_eq (l_heap st1)); auto. apply (gx_same _ _ _ _ G'); auto.
      * exists V. split; [apply in_or_app; auto|exact NV].
    + destruct (gx_new _ _ _ _ G' U I J) as [C (V & IV & NV)]. split; [exact C|]. exists V. split; [apply in_or_app; auto|exact NV].
  - intros U N. rewrite (gx_rest _ _ _ _ G') by auto. apply (gx_rest _ _ _ _ G). intro J. apply N. apply (gx_incl _ _ _ _ G'). exact J.
Qed.
Lemma growx_weak ts ts' (X Y : tptr -> Prop) st st' : incl ts ts' -> (forall U, X U -> Y U) -> growx ts X st st' -> growx ts' Y st st'.
Proof.
  intros A B [g1 g2 g3 g4]. constructor; auto.
  intros U I N. destruct (g3 U I N) as [C (V & IV & NV)]. split; auto. exists V. auto.
Qed.
Lemma growx_blank ts X st st' : growx ts X st st' -> blank P st -> blank P st'.
Proof.
  intros G B U d Ed N. rewrite (gx_rest _ _ _ _ G) by auto. apply B; auto. intro I. apply N. apply (gx_incl _ _ _ _ G). exact I.
Qed.

(* every request, however it ends *)
Definition good (g : lstate -> tptr -> lstate * ended) : Prop := forall st T st' e, g st T = (st', e) -> blank P st ->
  shaped P (l_heap st) -> growx [T] (fun _ => False) st st' /\ shaped P (l_heap st').

Lemma each_good g : good g -> forall ts st st' e, each_x g st ts = (st', e) -> blank P st -> shaped P (l_heap st) ->
  growx ts (fun _ => False) st st' /\ shaped P (l_heap st').
Proof.
  intro G. induction ts as [|t ts IH]; intros st st' e E B Sh; cbn in E.
  - injection E as <- <-. split; [apply growx_refl|auto].
  - destruct (g st t) as [st1 e1] eqn:E1. destruct (G _ _ _ _ E1 B Sh) as [G1 S1].
    assert (Stop : st' = st1 -> growx (t :: ts) (fun _ => False) st st' /\ shaped P (l_heap st')).
    { intros ->. split; [|exact S1]. apply (growx_weak [t] _ (fun _ => False)); auto. intros x [<-|[]]. now left. }
    destruct e1; try (apply Stop; congruence).
    destruct (IH _ _ _ E (growx_blank _ _ _ _ G1 B) S1) as [G2 S2]. split; [|exact S2].
    apply (growx_trans [t] ts _ st st1 st'); auto. intros U [].
Qed.

Lemma body_good g T d : good g -> nth_error (p_decls P) T = Some d ->
  forall post pre st st' e, d_body d = pre ++ post -> In T (l_started st) ->
    tget (l_heap st) T = Some (lbuilt (d_id d) pre) -> fields_ok pre (lbuilt (d_id d) pre) ->
    blank P st -> shaped P (l_heap st) -> body_x g T st post = (st', e) ->
    growx (flat_map asks post) (eq T) st st' /\ shaped P (l_heap st') /\ begun (l_heap st') T /\
    (e <> Fine -> half (l_heap st') T).
Proof.
  intros G Ed. induction post as [|r post IH]; intros pre st st' e Eb IT Et F B Sh E; cbn [body_x] in E.
  - injection E as <- <-. split; [apply growx_refl|]. split; [exact Sh|]. split; [exists d, pre, []; auto|congruence].
  - destruct (each_x g st (asks r)) as [st1 e1] eqn:E1. destruct (each_good g G _ _ _ _ E1 B Sh) as [G1 S1].
    assert (IT1 : In T (l_started st1)) by (apply (gx_incl _ _ _ _ G1); exact IT).
    assert (Et1 : tget (l_heap st1) T = Some (lbuilt (d_id d) pre)) by (rewrite (gx_same _ _ _ _ G1); auto).
    assert (GX : growx (flat_map asks (r :: post)) (eq T) st st1).
    { cbn [flat_map]. apply (growx_weak (asks r) _ (fun _ => False)); [|intros U []|exact G1]. intros x J. apply in_or_app. now left. }
    assert (Stop : st' = st1 -> growx (flat_map asks (r :: post)) (eq T) st st' /\ shaped P (l_heap st') /\ begun (l_heap st') T /\
       (e <> Fine -> half (l_heap st') T)).
    { intros ->. split; [exact GX|]. split; [exact S1|]. split; [exists d, pre, (r :: post); auto|]. intros _. exists d, pre, r, post. auto. }
    destruct e1; try (apply Stop; congruence).
    destruct (lreg1 (l_heap st1) T r) as [H'| | | |] eqn:E2; try (apply Stop; congruence).
    destruct (lreg1_effect _ _ _ _ _ E2 Et1) as [-> N].
    assert (VT : valid (l_heap st1) T) by (eapply tget_valid; eauto).
    set (st2 := LState (set_type (l_heap st1) T (lapply (lbuilt (d_id d) pre) r)) (l_started st1)) in *.
    assert (Et2 : tget (l_heap st2) T = Some (lbuilt (d_id d) (pre ++ [r]))).
    { cbn. rewrite tget_set_eq by auto. now rewrite lbuilt_snoc. }
    assert (G2 : growx [] (eq T) st1 st2).
    { constructor; cbn.
      - apply incl_refl.
      - intros U IU NU. apply tget_set_neq; auto.
      - intros U A C. contradiction.
      - intros U NU. apply tget_set_neq; auto. intros ->. contradiction. }
    assert (S2 : shaped P (l_heap st2)).
    { destruct S1 as (s1 & s2 & s3). unfold shaped. cbn. rewrite length_set_nth. auto. }
    destruct (IH (pre ++ [r]) st2 st' e) as (G3 & R); auto.
    + now rewrite <- app_assoc.
    + now apply fields_ok_snoc.
    + apply (growx_blank _ _ _ _ G2). apply (growx_blank _ _ _ _ G1 B).
    + split; [|exact R]. cbn [flat_map]. apply (growx_trans _ _ _ st st1 st'); [intros U <-; exact IT| |].
      { apply (growx_weak (asks r) _ (fun _ => False) _ _ _ (incl_refl _)); [intros U []|exact G1]. }
      change (flat_map asks post) with ([] ++ flat_map asks post). apply (growx_trans _ _ _ st1 st2 st'); auto. intros U <-. exact IT1.
Qed.

Lemma load_xf_spec n st T st' e : good (load_xf n P) -> load_xf (S n) P st T = (st', e) -> blank P st -> shaped P (l_heap st) ->
  growx [T] (fun _ => False) st st' /\ shaped P (l_heap st') /\
  (In T (l_started st) -> st' = st /\ e = Fine) /\
  (nth_error (p_decls P) T = None -> st' = st) /\
  (T < length (p_decls P) \/ e = Fine -> In T (l_started st') /\ (e <> Fine -> half (l_heap st') T)).
Proof.
  intros G E B Sh. cbn [load_xf] in E. destruct (existsb (Nat.eqb T) (l_started st)) eqn:Ex.
  - injection E as <- <-. apply mem_iff in Ex. split; [apply growx_refl|]. split; [exact Sh|]. split; [auto|]. split; [auto|]. intros _. split; [exact Ex|]. intro X. now contradiction X.
  - assert (NI : ~ In T (l_started st)) by (intro I; apply mem_iff in I; congruence).
    destruct (nth_error (p_decls P) T) as [d|] eqn:Ed.
    + pose proof (B T d Ed NI) as Bt.
      destruct (body_good (load_xf n P) T d G Ed (d_body d) [] (LState (l_heap st) (T :: l_started st)) st' e)
        as (Gx & R1 & R2 & R3); auto.
      { now left. }
      { intros m a off []. }
      { intros U u Eu NU. cbn. apply B; auto. intro J. apply NU. now right. }
      assert (IT : In T (l_started st')) by (apply (gx_incl _ _ _ _ Gx); now left).
      split; [|split; [exact R1|split; [intro J; contradiction|split; [discriminate|auto]]]]. constructor.
      * intros U J. apply (gx_incl _ _ _ _ Gx). now right.
      * intros U J _. apply (gx_same _ _ _ _ Gx U (or_intror J)). intros <-. contradiction.
      * intros U J NU. destruct (Nat.eq_dec U T) as [->|NT].
        { split; [exact R2|]. exists T. split; [now left|apply rt1n_refl]. }
        destruct (gx_new _ _ _ _ Gx U J) as [C (V & IV & NV)].
        { intros [X|X]; [congruence|contradiction]. }
        split; [exact C|]. exists T. split; [now left|]. eapply Relation_Operators.rt1n_trans; [|exact NV].
        now apply (names_body P T d Ed).
      * intros U NU. apply (gx_rest _ _ _ _ Gx U NU).
    + injection E as <- <-. split; [apply growx_refl|]. split; [exact Sh|]. split; [intro J; contradiction|]. split; [auto|].
      intros [L|L]; [apply nth_error_Some in L; contradiction|discriminate].
Qed.
Lemma load_xf_good n : good (load_xf n P).
Proof.
  induction n as [|n IH].
  - intros st T st' e E B Sh. cbn in E. injection E as <- <-. split; [apply growx_refl|exact Sh].
  - intros st T st' e E B Sh. destruct (load_xf_spec n st T st' e IH E B Sh) as (A & C & _). auto.
Qed.
Lemma load_x_spec st T st' e : load_x P st T = (st', e) -> blank P st -> shaped P (l_heap st) ->
  growx [T] (fun _ => False) st st' /\ shaped P (l_heap st') /\
  (In T (l_started st) -> st' = st /\ e = Fine) /\
  (nth_error (p_decls P) T = None -> st' = st) /\
  (T < length (p_decls P) \/ e = Fine -> In T (l_started st') /\ (e <> Fine -> half (l_heap st') T)).
Proof. apply load_xf_spec, load_xf_good. Qed.

(* ---- a whole program ---- *)
Lemma attempts_app st ts us : attempts_from P st (ts ++ us) =
  let (st1, log) := attempts_from P st ts in let (st2, log') := attempts_from P st1 us in (st2, log ++ log').
Proof.
  revert st. induction ts as [|t ts IH]; intro st; cbn [attempts_from app].
  - now destruct (attempts_from P st us).
  - destruct (load_x P st t) as [st1 e]. rewrite (IH st1). destruct (attempts_from P st1 ts) as [st2 log].
    destruct (attempts_from P st2 us). reflexivity.
Qed.

Record invx (st : lstate) (log : list (tptr * ended)) : Prop := {
  ix_blank : blank P st;
  ix_shaped : shaped P (l_heap st);
  ix_begun : forall U, In U (l_started st) -> begun (l_heap st) U;
  ix_why : forall U, In U (l_started st) -> exists s e, In (s, e) log /\ needs P s U /\ (e = Fine -> complete P st U);
  ix_asked : forall s e, In (s, e) log -> s < length (p_decls P) \/ e = Fine -> In s (l_started st);
  ix_half : forall s e, In (s, e) log -> e <> Fine -> s < length (p_decls P) -> half (l_heap st) s }.

Lemma invx_step st log t st' e : invx st log -> load_x P st t = (st', e) -> invx st' (log ++ [(t, e)]).
Proof.
  intros [B Sh Bg W A Hf] E. destruct (load_x_spec _ _ _ _ E B Sh) as (G & Sh' & Kn & Un & Asked).
  assert (Same : forall U, In U (l_started st) -> tget (l_heap st') U = tget (l_heap st) U) by (intros U I; apply (gx_same _ _ _ _ G); auto).
  assert (Inc := gx_incl _ _ _ _ G).
  constructor; auto.
  - eapply growx_blank; eauto.
  - intros U I. destruct (in_dec_n U (l_started st)) as [J|J]; [apply (begun_eq (l_heap st)); auto|].
    apply (gx_new _ _ _ _ G U I J).
  - intros U I. destruct (in_dec_n U (l_started st)) as [J|J].
    + destruct (W U J) as (s & e0 & I0 & N0 & C0). exists s, e0. split; [apply in_or_app; auto|]. split; [exact N0|].
      intro Ef. destruct (C0 Ef) as (d & E1 & E2 & E3 & E4). exists d. rewrite Same by auto.
      split; [exact E1|]. split; [exact E2|]. split; [exact E3|]. intros V NV. apply Inc. auto.
    + destruct (gx_new _ _ _ _ G U I J) as [_ (V & IV & NV)]. destruct IV as [<-|[]].
      exists t, e. split; [apply in_or_app; right; now left|]. split; [exact NV|]. intros ->.
      apply (load_agree P) in E. destruct (load_ok P _ st t st' E B Sh) as (G' & _). apply (gr_new _ _ _ _ _ G' U I J).
  - intros s e0 I L. apply in_app_or in I as [I|[I|[]]]; [apply Inc; eauto|]. injection I as -> ->. now apply Asked.
  - intros s e0 I Ne L. apply in_app_or in I as [I|[I|[]]].
    + destruct (Hf s e0 I Ne L) as (d & pre & r & post & E1 & E2 & E3 & E4). exists d, pre, r, post. rewrite Same; eauto.
    + injection I as -> ->. apply Asked; auto.
Qed.
Lemma invx_init : invx (linit P) [].
Proof.
  constructor; [apply linit_blank|apply linit_shaped|intros U []|intros U []|intros s e []|intros s e []].
Qed.
Lemma invx_from ts : forall st log st' log', invx st log -> attempts_from P st ts = (st', log') -> invx st' (log ++ log').
Proof.
  induction ts as [|t ts IH]; intros st log st' log' Iv E; cbn [attempts_from] in E.
  - injection E as <- <-. now rewrite app_nil_r.
  - destruct (load_x P st t) as [st1 e] eqn:E1. destruct (attempts_from P st1 ts) as [st2 log2] eqn:E2. injection E as <- <-.
    change ((t, e) :: log2) with ([(t, e)] ++ log2). rewrite app_assoc. eapply IH; [|exact E2]. eapply invx_step; eauto.
Qed.
Lemma invx_attempts ts st log : attempts P ts = (st, log) -> invx st log.
Proof. intro E. apply (invx_from ts _ [] _ _ invx_init E). Qed.
Lemma attempts_log ts st log : attempts P ts = (st, log) -> map fst log = ts.
Proof.
  unfold attempts. generalize (linit P). revert st log. induction ts as [|t ts IH]; intros st log s E; cbn [attempts_from] in E.
  - now injection E as <- <-.
  - destruct (load_x P s t) as [st1 e]. destruct (attempts_from P st1 ts) as [st2 log2] eqn:E2. injection E as <- <-.
    cbn. f_equal. eauto.
Qed.
Lemma attempts_same ts us st log st' log' : attempts P ts = (st, log) -> attempts P (ts ++ us) = (st', log') ->
  forall U, In U (l_started st) -> tget (l_heap st') U = tget (l_heap st) U.
Proof.
  intros E E'. unfold attempts in E'. rewrite attempts_app in E'. fold (attempts P ts) in E'. rewrite E in E'.
  apply invx_attempts in E. destruct (attempts_from P st us) as [s l] eqn:Eu. injection E' as -> _. clear ts.
  revert st log st' l E Eu. induction us as [|u us IH]; intros st log st' l Iv E U I; cbn [attempts_from] in E; [congruence|].
  destruct (load_x P st u) as [st1 e] eqn:E1. destruct (attempts_from P st1 us) as [st2 l2] eqn:E2. injection E as <- <-.
  destruct (load_x_spec _ _ _ _ E1 (ix_blank _ _ Iv) (ix_shaped _ _ Iv)) as (G & _).
  rewrite (IH st1 (log ++ [(u, e)]) st2 l2 (invx_step _ _ _ _ _ Iv E1) E2 U (gx_incl _ _ _ _ G U I)).
  apply (gx_same _ _ _ _ G); auto.
Qed.

Lemma in_full ts st log t : attempts P ts = (st, log) -> In (t, Fine) log ->
  (forall s e U, In (s, e) log -> e <> Fine -> needs P t U -> ~ needs P s U) ->
  forall U, needs P t U -> complete P st U.
Proof.
  intros E It Clean. pose proof (invx_attempts _ _ _ E) as Iv.
  assert (C : forall U, needs P t U -> In U (l_started st) -> complete P st U).
  { intros U N I. destruct (ix_why _ _ Iv U I) as (s & e & Is & Ns & Cs). apply Cs. destruct e; auto; exfalso; eapply (Clean s); eauto; discriminate. }
  assert (Ist : In t (l_started st)).
  { eapply ix_asked; eauto. }
  intros U N. apply C; auto. clear Clean It.
  assert (G : forall x, needs P t x -> In x (l_started st) -> forall y, needs P x y -> In y (l_started st)).
  { intros x Nx Ix y Ny. induction Ny as [|x y z N1 N2 IH]; auto. apply IH.
    - apply clos_rt_rt1n. apply rt_trans with x; [now apply clos_rt1n_rt|now apply rt_step].
    - destruct (C x Nx Ix) as (d & _ & _ & _ & K). auto. }
  apply (G t); auto. apply rt1n_refl.
Qed.
End LoadX.
