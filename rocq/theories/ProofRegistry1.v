(* ProofRegistry1.v - invariants of the registry *)
From Coq Require String.
Import String.StringSyntax.
From Verif Require Import Base ModelCore ModelScope SpecScope ProofScope1 ProofScope2 ProofScope3 ProofScope4 ModelRegistry.
Local Open Scope outcome_scope.

(* ---- a generic preservation principle ---- *)
Definition act_ok (A : str -> lid -> Prop) (a : action) : Prop := match a with AAdd id l => A id l | _ => True end.
Definition prog_ok (A : str -> lid -> Prop) (P : prog) : Prop :=
  Forall (Forall (act_ok A)) (p_loaders P) /\ Forall (fun p => A (fst p) (snd p)) (p_templates P).

Record preserved (A : str -> lid -> Prop) (I : rstate -> Prop) : Prop := {
  pr_add : forall st id l, A id l -> I st -> I (fst (radd st id l));
  pr_alias : forall st id al, I st -> I (fst (ralias st id al));
  pr_new : forall st id l, I st -> afind id (r_types st) = None -> afind id (r_loaders st) = Some l -> id <> [] ->
    I (rnewtype st id l);
  pr_flags : forall st x, I st -> I (set_rflags st x) }.

Lemma loader_code_ok A P l : prog_ok A P -> Forall (act_ok A) (loader_code P l).
Proof.
  intros (F & _). unfold loader_code. destruct (nth_in_or_default l (p_loaders P) []) as [Hin| ->]; [|constructor].
  rewrite Forall_forall in F. auto.
Qed.

Lemma run_actions_pres A I P g : prog_ok A P -> preserved A I -> (forall st id, I st -> I (fst (g st id))) ->
  forall acts st, Forall (act_ok A) acts -> I st -> I (fst (run_actions g P st acts)).
Proof.
  intros PO PR G. induction acts as [|a acts IH]; intros st F H; cbn [run_actions]; auto.
  inversion F as [|? ? Fa F']; subst.
  assert (Q : I (fst (match a with
      | AGet id => let '(st1, r) := g st id in (st1, do _ <- r; Ok tt)
      | AAdd id l => radd st id l
      | AAlias id al => ralias st id al
      | AUse k =>
        match nth_error (p_templates P) k with
        | None => (st, Ok tt)
        | Some (id, l) =>
          let '(st1, r1) := if existsb (Nat.eqb k) (r_flags st) then (st, Ok tt)
                            else radd (set_rflags st (k :: r_flags st)) id l in
          match r1 with
          | Ok _ => let '(st2, r2) := g st1 id in (st2, do _ <- r2; Ok tt)
          | _ => (st1, r1)
          end
        end
      | AFail => (st, Abort)
      end))).
  { destruct a as [id|id l|id al|k|]; cbn in Fa.
    - specialize (G st id H). destruct (g st id). exact G.
    - apply (pr_add _ _ PR); auto.
    - apply (pr_alias _ _ PR); auto.
    - destruct (nth_error (p_templates P) k) as [(id & l)|] eqn:Ek; auto.
      assert (Q1 : I (fst (if existsb (Nat.eqb k) (r_flags st) then (st, Ok tt)
                       else radd (set_rflags st (k :: r_flags st)) id l))).
      { destruct (existsb _ _); auto. apply (pr_add _ _ PR); [|apply (pr_flags _ _ PR); auto].
        apply nth_error_In in Ek. destruct PO as (_ & PT). rewrite Forall_forall in PT. apply (PT _ Ek). }
      destruct (if existsb (Nat.eqb k) (r_flags st) then (st, Ok tt) else radd (set_rflags st (k :: r_flags st)) id l) as (st1 & r1).
      cbn [fst] in Q1. destruct r1; auto. specialize (G st1 id Q1). destruct (g st1 id). exact G.
    - auto. }
  destruct (match a with
      | AGet id => let '(st1, r) := g st id in (st1, do _ <- r; Ok tt)
      | AAdd id l => radd st id l
      | AAlias id al => ralias st id al
      | AUse k => _
      | AFail => (st, Abort)
      end) as (st' & r). cbn [fst] in Q. destruct r; auto.
Qed.

Lemma get_f_pres A I P : prog_ok A P -> preserved A I -> forall n st id, I st -> I (fst (get_f n P st id)).
Proof.
  intros PO PR. induction n as [|n IH]; intros st id0 H; cbn [get_f]; auto.
  destruct (afind (resolve st id0) (r_types st)) as [t|] eqn:Et; auto.
  destruct (resolve st id0) as [|a id] eqn:Er; auto.
  destruct (afind (a :: id) (r_loaders st)) as [l|] eqn:El; auto.
  pose proof (run_actions_pres A I P (get_f n P) PO PR IH (loader_code P l) (rnewtype st (a :: id) l)
    (loader_code_ok A P l PO) (pr_new _ _ PR _ _ _ H Et El ltac:(discriminate))) as Q.
  destruct (run_actions (get_f n P) P (rnewtype st (a :: id) l) (loader_code P l)) as (st' & r). exact Q.
Qed.

Lemma step_pres A I P : prog_ok A P -> preserved A I -> forall st a, act_ok A a -> I st -> I (fst (step P st a)).
Proof.
  intros PO PR st a Fa H. apply (run_actions_pres A I P); auto. intros st' id. apply (get_f_pres A I P PO PR).
Qed.
Lemma run_pres A I P : prog_ok A P -> preserved A I -> forall h st, Forall (act_ok A) h -> I st -> I (run P st h).
Proof.
  intros PO PR. induction h as [|a h IH]; intros st F H; [exact H|]. inversion F as [|? ? Fa F']; subst.
  change (run P st (a :: h)) with (run P (fst (step P st a)) h). apply IH; auto. apply (step_pres A I P); auto.
Qed.

Definition anyadd : str -> lid -> Prop := fun _ _ => True.
Lemma act_any a : act_ok anyadd a. Proof. destruct a; exact I. Qed.
Lemma acts_any l : Forall (act_ok anyadd) l. Proof. apply Forall_forall. intros a _. apply act_any. Qed.
Lemma prog_any P : prog_ok anyadd P.
Proof. split; apply Forall_forall; intros x _; [apply acts_any|exact I]. Qed.

(* ---- addType never runs out of fuel ---- *)
Lemma addType_f_total : forall n S this name, wf_scopes S -> this < length S -> length name < n ->
  (exists S', addType_f n S this name = Ok S') \/ addType_f n S this name = Abort.
Proof.
  induction n as [|n IH]; intros S this name W L Ln; [lia|]. cbn [addType_f].
  destruct (head_total name) as [(h & t & Hh)|Hh]; rewrite Hh; cbn [bind]; auto.
  destruct (lt_sget S this L) as (s & Es). rewrite Es. destruct t as [|a t]; [eauto|].
  destruct (ahas h (s_types s)); auto. destruct (ahas h (s_fns s)); auto.
  destruct (path_exists S W (Datatypes.S this) this) as (x0 & Hx); auto.
  destruct (scope_views h [h] S this x0) as (S1 & p1 & E1 & W1 & R1 & _); auto.
  { apply Sp_last. eapply head_again; eauto. }
  rewrite E1. cbn [bind]. apply IH; auto; [eapply walk_lt; eauto|].
  pose proof (head_progress _ _ _ Hh ltac:(discriminate)). lia.
Qed.
Lemma addType_total S name : wf_scopes S -> (exists S', addType S 0 name = Ok S') \/ addType S 0 name = Abort.
Proof. intro W. apply addType_f_total; auto. apply (walk_lt S []); auto. Qed.

Lemma radd_cases st id l : wf_scopes (r_scopes st) ->
  (exists S', addType (r_scopes st) 0 id = Ok S' /\ id <> [] /\
     radd st id l = (set_rscopes (if ahas id (r_loaders st) then st else set_rloaders st (r_loaders st ++ [(id, l)])) S', Ok tt)) \/
  (id = [] /\ radd st id l = (st, Abort)) \/
  (id <> [] /\ addType (r_scopes st) 0 id = Abort /\
     radd st id l = ((if ahas id (r_loaders st) then st else set_rloaders st (r_loaders st ++ [(id, l)])), Abort)).
Proof.
  intro W. unfold radd. destruct id as [|a id]; auto.
  destruct (ahas (a :: id) (r_loaders st)); cbv zeta; cbn [r_scopes set_rloaders];
  (destruct (addType_total (r_scopes st) (a :: id) W) as [(S' & ES)|EA];
   [left; exists S'; rewrite ES; repeat split; discriminate|right; right; rewrite EA; repeat split; discriminate]).
Qed.

Lemma addType_wf S name S' : wf_scopes S -> addType S 0 name = Ok S' -> wf_scopes S'.
Proof. intros W E. apply (scope_step_wf S (OpAddType 0 name) S' W E). Qed.

(* ---- the invariant ---- *)
Record Inv (st : rstate) : Prop := {
  i_scopes : wf_scopes (r_scopes st);
  i_obj : forall id t, afind id (r_types st) = Some t <-> nth_error (r_objs st) t = Some id;
  i_log : map fst (r_log st) = r_objs st;
  i_nonempty : ~ In [] (r_objs st);
  i_alias : NoDup (akeys (r_aliases st)) /\ ~ In [] (akeys (r_aliases st)) /\ ~ In [] (map snd (r_aliases st));
  i_loaders : NoDup (akeys (r_loaders st)) /\ ~ In [] (akeys (r_loaders st)) }.

Lemma rinit_Inv : Inv rinit.
Proof.
  constructor; cbn; auto using sinit_wf.
  - intros id t. destruct t; split; discriminate.
  - repeat split; auto. constructor.
  - split; auto. constructor.
Qed.

Lemma Inv_pres : preserved anyadd Inv.
Proof.
  constructor.
  - intros st id l _ [W O L N Al (Ld1 & Ld2)].
    assert (LD : id <> [] -> NoDup (akeys (r_loaders (if ahas id (r_loaders st) then st else set_rloaders st (r_loaders st ++ [(id, l)])))) /\
       ~ In [] (akeys (r_loaders (if ahas id (r_loaders st) then st else set_rloaders st (r_loaders st ++ [(id, l)]))))).
    { intro Ne. destruct (ahas id (r_loaders st)) eqn:Eh; auto. cbn. unfold akeys. rewrite map_app. split.
      - apply NoDup_snoc; auto. intro Hi. change (In id (akeys (r_loaders st))) in Hi. apply ahas_In in Hi. congruence.
      - rewrite in_app_iff. cbn. intros [Hi|[Hi|[]]]; [now apply Ld2|congruence]. }
    destruct (radd_cases st id l W) as [(S' & ES & Ne & ->)|[(_ & ->)|(Ne & _ & ->)]]; cbn [fst].
    + destruct (LD Ne) as (LD1 & LD2). constructor; cbn; auto; try (destruct (ahas id (r_loaders st)); auto; fail).
      * eapply addType_wf; eauto.
    + constructor; auto.
    + destruct (LD Ne) as (LD1 & LD2). constructor; auto; destruct (ahas id (r_loaders st)); auto.
  - intros st id al [W O L N (A1 & A2 & A3) Ld]. unfold ralias. destruct id as [|a id]; [constructor; auto|].
    destruct al as [|b al]; [constructor; auto|].
    destruct (ahas (b :: al) (r_aliases st)) eqn:Eh; [constructor; auto|]. constructor; cbn; auto.
    unfold akeys. rewrite !map_app. split; [|split].
    + apply NoDup_snoc; auto. intro Hi. change (In (b :: al) (akeys (r_aliases st))) in Hi. apply ahas_In in Hi. congruence.
    + rewrite in_app_iff. cbn. intros [Hi|[Hi|[]]]; [now apply A2|congruence].
    + rewrite in_app_iff. cbn. intros [Hi|[Hi|[]]]; [now apply A3|congruence].
  - intros st id l [W O L N Al (Ld1 & Ld2)] Et El Ne. constructor; cbn; auto.
    + intros i t. rewrite afind_app. destruct (afind i (r_types st)) as [t'|] eqn:Ei.
      * apply O in Ei as Ei'. assert (Lt : t' < length (r_objs st)) by (apply nth_error_Some; congruence).
        destruct (Nat.lt_ge_cases t (length (r_objs st))) as [L1|L1].
        -- rewrite nth_error_app1 by auto. rewrite <- O, Ei. tauto.
        -- rewrite nth_error_app2 by auto. split; [intro E; injection E as <-; lia|].
           intro E. destruct (t - length (r_objs st)) as [|[|]]; cbn in E; try discriminate. congruence.
      * cbn. destruct (str_eqb_spec i id) as [->|Nq].
        -- split.
           ++ intro E. injection E as <-. rewrite nth_error_app2, Nat.sub_diag by auto. reflexivity.
           ++ intro E. destruct (Nat.lt_ge_cases t (length (r_objs st))) as [L1|L1].
              ** rewrite nth_error_app1 in E by auto. apply O in E. congruence.
              ** rewrite nth_error_app2 in E by auto. f_equal.
                 destruct (t - length (r_objs st)) as [|[|]] eqn:D; cbn in E; try discriminate. lia.
        -- split; [discriminate|]. intro E. destruct (Nat.lt_ge_cases t (length (r_objs st))) as [L1|L1].
           ++ rewrite nth_error_app1 in E by auto. apply O in E. congruence.
           ++ rewrite nth_error_app2 in E by auto.
              destruct (t - length (r_objs st)) as [|[|]]; cbn in E; try discriminate. congruence.
    + rewrite map_app, L. reflexivity.
    + rewrite in_app_iff. cbn. intros [Hi|[Hi|[]]]; [now apply N|congruence].
    + split; [now apply NoDup_akeys_aerase|]. intro Hi. apply (In_akeys_aerase [] id (r_loaders st)) in Hi. tauto.
  - intros st x [W O L N Al Ld]. constructor; auto.
Qed.

(* ---- the registry only grows ---- *)
Record rext (st st' : rstate) : Prop := {
  x_types : forall id t, afind id (r_types st) = Some t -> afind id (r_types st') = Some t;
  x_aliases : forall a id, afind a (r_aliases st) = Some id -> afind a (r_aliases st') = Some id;
  x_objs : exists l, r_objs st' = r_objs st ++ l;
  x_log : exists l, r_log st' = r_log st ++ l;
  x_vtypes : forall x c, vtype (r_scopes st) x c -> vtype (r_scopes st') x c }.

Lemma rext_refl st : rext st st.
Proof. constructor; auto; exists []; now rewrite app_nil_r. Qed.
Lemma rext_trans a b c : rext a b -> rext b c -> rext a c.
Proof.
  intros [T1 A1 (o1 & O1) (l1 & L1) V1] [T2 A2 (o2 & O2) (l2 & L2) V2]. constructor; auto.
  - exists (o1 ++ o2). rewrite O2, O1. now rewrite app_assoc.
  - exists (l1 ++ l2). rewrite L2, L1. now rewrite app_assoc.
Qed.

Lemma addType_vtypes S name S' : wf_scopes S -> addType S 0 name = Ok S' -> forall x c, vtype S x c -> vtype S' x c.
Proof.
  intros W E x c V. destruct (addType_Splits _ _ _ _ _ W E) as (_ & cs & Sp).
  destruct (snoc_of cs (Splits_nonempty _ _ Sp)) as (cs' & d & ->).
  destruct (addType_views _ _ _ Sp S 0 [] W eq_refl (Datatypes.S (length name))) as [(_ & A)|(_ & S1 & A & _ & _ & _ & T & _)]; [lia| |];
    unfold addType in E; rewrite E in A; [discriminate|]. injection A as ->. apply T. auto.
Qed.

Lemma rext_pres st0 : preserved anyadd (fun st => wf_scopes (r_scopes st) /\ rext st0 st).
Proof.
  constructor.
  - intros st id l _ (W & R). destruct (radd_cases st id l W) as [(S' & ES & Ne & ->)|[(_ & ->)|(Ne & _ & ->)]]; cbn [fst]; auto.
    + split; [cbn; eapply addType_wf; eauto|]. eapply rext_trans; [exact R|].
      constructor; cbn; try (destruct (ahas id (r_loaders st)); cbn; auto; exists []; now rewrite app_nil_r).
      eapply addType_vtypes; eauto.
    + split; [destruct (ahas id (r_loaders st)); auto|]. eapply rext_trans; [exact R|].
      destruct (ahas id (r_loaders st)); [apply rext_refl|].
      constructor; cbn; auto; exists []; now rewrite app_nil_r.
  - intros st id al (W & R). unfold ralias. destruct id as [|a id]; auto. destruct al as [|b al]; auto.
    destruct (ahas (b :: al) (r_aliases st)) eqn:Eh; auto. cbn [fst]. split; auto. eapply rext_trans; [exact R|].
    constructor; cbn; auto; try (exists []; now rewrite app_nil_r).
    intros a' i E. rewrite afind_app, E. auto.
  - intros st id l (W & R) Et El Ne. split; auto. eapply rext_trans; [exact R|]. constructor; cbn; auto; eauto.
    intros i t E. rewrite afind_app, E. auto.
  - intros st x (W & R). split; auto. eapply rext_trans; [exact R|]. constructor; cbn; auto; exists []; now rewrite app_nil_r.
Qed.

Lemma get_rext n P st id : Inv st -> rext st (fst (get_f n P st id)).
Proof.
  intro H. apply (get_f_pres _ _ P (prog_any P) (rext_pres st) n st id). split; [apply (i_scopes _ H)|apply rext_refl].
Qed.
Lemma run_rext P st h : Inv st -> rext st (run P st h).
Proof.
  intro H. apply (run_pres _ _ P (prog_any P) (rext_pres st) h st (acts_any h)). split; [apply (i_scopes _ H)|apply rext_refl].
Qed.
Lemma get_Inv n P st id : Inv st -> Inv (fst (get_f n P st id)).
Proof. apply (get_f_pres _ _ P (prog_any P) Inv_pres). Qed.
Lemma run_Inv P st h : Inv st -> Inv (run P st h).
Proof. apply (run_pres _ _ P (prog_any P) Inv_pres h st (acts_any h)). Qed.
Lemma actions_Inv P n acts st : Inv st -> Inv (fst (run_actions (get_f n P) P st acts)).
Proof.
  apply (run_actions_pres _ _ P _ (prog_any P) Inv_pres (fun st id => get_Inv n P st id) acts st (acts_any acts)).
Qed.
Lemma actions_rext P n acts st : Inv st -> rext st (fst (run_actions (get_f n P) P st acts)).
Proof.
  intro H. apply (run_actions_pres _ _ P (get_f n P) (prog_any P) (rext_pres st)); [|apply acts_any|split; [apply (i_scopes _ H)|apply rext_refl]].
  intros st' id'. apply (get_f_pres _ _ P (prog_any P) (rext_pres st)).
Qed.
