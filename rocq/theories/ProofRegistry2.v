(* ProofRegistry2.v - lookups: termination, stability, small steps, locking *)
From Coq Require String.
Import String.StringSyntax.
From Verif Require Import Base ModelCore ModelScope SpecScope ProofScope2 ProofScope4 ModelRegistry SpecRegistry ProofRegistry1.
Local Open Scope outcome_scope.

Definition good {A} (r : outcome A) : Prop := match r with Ok _ => True | Abort => True | _ => False end.

(* ---- termination ---- *)
Definition pend (U : list str) (st : rstate) : nat := length (filter (fun i => negb (ahas i (r_types st))) U).

Lemma filter_le {A} (p q : A -> bool) l : (forall x, p x = true -> q x = true) -> length (filter p l) <= length (filter q l).
Proof.
  intro H. induction l as [|x l IH]; cbn; auto. destruct (p x) eqn:Ep.
  - rewrite (H x Ep). cbn. lia.
  - destruct (q x); cbn; lia.
Qed.
Lemma filter_lt {A} (p q : A -> bool) l y : (forall x, p x = true -> q x = true) -> In y l -> p y = false -> q y = true ->
  length (filter p l) < length (filter q l).
Proof.
  intros H Hin Py Qy. induction l as [|x l IH]; [destruct Hin|]. cbn. destruct Hin as [->|Hin].
  - rewrite Py, Qy. cbn. pose proof (filter_le p q l H). lia.
  - specialize (IH Hin). destruct (p x) eqn:Ep; [rewrite (H x Ep); cbn; lia|]. destruct (q x); cbn; lia.
Qed.

Lemma pend_mono U st st' : rext st st' -> pend U st' <= pend U st.
Proof.
  intro R. apply filter_le. intros x H. unfold ahas in *. destruct (afind x (r_types st)) eqn:E; auto.
  rewrite (x_types _ _ R _ _ E) in H. discriminate.
Qed.
Lemma pend_new U st id l : In id U -> afind id (r_types st) = None -> pend U (rnewtype st id l) < pend U st.
Proof.
  intros Hin E. unfold pend. apply filter_lt with id; auto.
  - intros x H. cbn in H. unfold ahas in *. rewrite afind_app in H. destruct (afind x (r_types st)); auto.
  - cbn. unfold ahas. rewrite afind_app, E. cbn. now rewrite str_eqb_refl.
  - unfold ahas. now rewrite E.
Qed.

Definition inU (U : list str) : str -> lid -> Prop := fun id _ => In id U.
Definition InvU (U : list str) (st : rstate) : Prop := Inv st /\ incl (akeys (r_loaders st)) U.

Lemma InvU_pres U : preserved (inU U) (InvU U).
Proof.
  constructor.
  - intros st id l HA (H & L). split; [apply (pr_add _ _ Inv_pres); auto; exact I|].
    assert (LL : incl (akeys (r_loaders (if ahas id (r_loaders st) then st else set_rloaders st (r_loaders st ++ [(id, l)])))) U).
    { destruct (ahas id (r_loaders st)); auto. cbn. unfold akeys. rewrite map_app. apply incl_app; auto.
      intros x [<-|[]]. exact HA. }
    destruct (radd_cases st id l (i_scopes _ H)) as [(S' & ES & Ne & ->)|[(_ & ->)|(Ne & _ & ->)]]; cbn [fst]; auto.
  - intros st id al (H & L). split; [apply (pr_alias _ _ Inv_pres); auto|]. unfold ralias.
    destruct id as [|a id]; auto. destruct al as [|b al]; auto. destruct (ahas (b :: al) (r_aliases st)); auto.
  - intros st id l (H & L) Et El Ne. split; [now apply (pr_new _ _ Inv_pres)|]. cbn. intros x Hx.
    apply (In_akeys_aerase x id (r_loaders st)) in Hx. apply L. tauto.
  - intros st x (H & L). split; auto. now apply (pr_flags _ _ Inv_pres).
Qed.

Lemma radd_good st id l : Inv st -> good (snd (radd st id l)).
Proof.
  intro H. destruct (radd_cases st id l (i_scopes _ H)) as [(S' & ES & Ne & ->)|[(_ & ->)|(Ne & _ & ->)]]; exact I.
Qed.
Lemma ralias_good st id al : good (snd (ralias st id al)).
Proof. unfold ralias. destruct id; [exact I|]. destruct al; [exact I|]. destruct (ahas _ _); exact I. Qed.

(* the first action of a list *)
Lemma run_actions_cons g P st a acts : run_actions g P st (a :: acts) =
  (let '(st', r) := run_actions g P st [a] in match r with Ok _ => run_actions g P st' acts | _ => (st', r) end).
Proof.
  cbn [run_actions].
  match goal with |- context [match ?e with pair _ _ => _ end] => destruct e as (st' & r) end. destruct r; auto.
Qed.
Lemma run_actions_app g P acts1 acts2 st : run_actions g P st (acts1 ++ acts2) =
  (let '(st', r) := run_actions g P st acts1 in match r with Ok _ => run_actions g P st' acts2 | _ => (st', r) end).
Proof.
  revert st. induction acts1 as [|a acts1 IH]; intro st; auto.
  cbn [app]. rewrite run_actions_cons, (run_actions_cons g P st a acts1).
  destruct (run_actions g P st [a]) as (st' & r). destruct r; auto.
Qed.

Section Fuel.
  Variable P : prog.
  Variable U : list str.
  Hypothesis PO : prog_ok (inU U) P.

  Lemma get_f_good : forall n st id, InvU U st -> pend U st < n -> good (snd (get_f n P st id)).
  Proof.
    induction n as [|n IH]; intros st id0 H Ln; [lia|]. cbn [get_f].
    destruct (afind (resolve st id0) (r_types st)) as [t|] eqn:Et; [exact I|].
    destruct (resolve st id0) as [|a id] eqn:Er; [exact I|].
    destruct (afind (a :: id) (r_loaders st)) as [l|] eqn:El; [|exact I].
    assert (G : forall acts st1, Forall (act_ok (inU U)) acts -> InvU U st1 -> pend U st1 < n ->
       good (snd (run_actions (get_f n P) P st1 acts))).
    { induction acts as [|x acts IHa]; intros st1 F H1 L1; [exact I|]. rewrite run_actions_cons.
      inversion F as [|? ? Fa F']; subst.
      assert (Q : good (snd (run_actions (get_f n P) P st1 [x]))).
      { cbn [run_actions]. destruct x as [i|i k|i al|k|]; cbn in Fa.
        - specialize (IH st1 i H1 L1). destruct (get_f n P st1 i) as (st2 & r). cbn in IH. destruct r; auto.
        - pose proof (radd_good st1 i k (proj1 H1)) as R. destruct (radd st1 i k) as (st2 & r). cbn in R. destruct r; auto.
        - pose proof (ralias_good st1 i al) as R. destruct (ralias st1 i al) as (st2 & r). cbn in R. destruct r; auto.
        - destruct (nth_error (p_templates P) k) as [(i & l')|] eqn:Ek; [|exact I].
          assert (HA : inU U i l').
          { apply nth_error_In in Ek. destruct PO as (_ & PT). rewrite Forall_forall in PT. apply (PT _ Ek). }
          assert (Q1 : InvU U (fst (if existsb (Nat.eqb k) (r_flags st1) then (st1, Ok tt)
                       else radd (set_rflags st1 (k :: r_flags st1)) i l')) /\
                       good (snd (if existsb (Nat.eqb k) (r_flags st1) then (st1, Ok tt)
                       else radd (set_rflags st1 (k :: r_flags st1)) i l')) /\
                       rext st1 (fst (if existsb (Nat.eqb k) (r_flags st1) then (st1, Ok tt)
                       else radd (set_rflags st1 (k :: r_flags st1)) i l'))).
          { destruct (existsb _ _); [split; auto; split; [exact I|apply rext_refl]|].
            pose proof (pr_flags _ _ (InvU_pres U) st1 (k :: r_flags st1) H1) as H2.
            split; [now apply (pr_add _ _ (InvU_pres U))|]. split; [apply radd_good; apply H2|].
            apply (pr_add _ _ (rext_pres st1)); [exact I|]. apply (pr_flags _ _ (rext_pres st1)).
            split; [apply (i_scopes _ (proj1 H1))|apply rext_refl]. }
          destruct (if existsb (Nat.eqb k) (r_flags st1) then (st1, Ok tt) else radd (set_rflags st1 (k :: r_flags st1)) i l') as (st2 & r1).
          cbn in Q1. destruct Q1 as (Q1 & Q2 & Q3). destruct r1; auto.
          pose proof (pend_mono U _ _ Q3) as PM. specialize (IH st2 i Q1 ltac:(lia)).
          destruct (get_f n P st2 i) as (st3 & r). cbn in IH. destruct r; auto.
        - exact I. }
      pose proof (run_actions_pres (inU U) (InvU U) P (get_f n P) PO (InvU_pres U)
        (fun s i => get_f_pres (inU U) (InvU U) P PO (InvU_pres U) n s i) [x] st1 ltac:(constructor; auto) H1) as H2.
      pose proof (actions_rext P n [x] st1 (proj1 H1)) as R2. pose proof (pend_mono U _ _ R2) as PM.
      destruct (run_actions (get_f n P) P st1 [x]) as (st2 & r). cbn in Q, H2, PM. destruct r; auto.
      apply IHa; auto. lia. }
    assert (HinU : In (a :: id) U) by (apply (proj2 H); eapply afind_Some_key; eauto).
    pose proof (pend_new U st (a :: id) l HinU Et) as PN.
    assert (H2 : InvU U (rnewtype st (a :: id) l)) by (apply (pr_new _ _ (InvU_pres U)); auto; discriminate).
    specialize (G (loader_code P l) _ (loader_code_ok _ P l PO) H2 ltac:(lia)).
    destruct (run_actions (get_f n P) P (rnewtype st (a :: id) l) (loader_code P l)) as (st' & r). cbn in G.
    destruct r; auto.
  Qed.
End Fuel.

Lemma universe_ok P st : prog_ok (inU (universe P st)) P.
Proof.
  split.
  - apply Forall_forall. intros acts Ha. apply Forall_forall. intros a Hx. destruct a; try exact I. cbn. unfold inU, universe.
    rewrite !in_app_iff. right. left. apply in_flat_map. exists acts. split; auto. apply in_flat_map.
    exists (AAdd id l). split; auto. now left.
  - apply Forall_forall. intros p Hp. unfold inU, universe. rewrite !in_app_iff. right. right. now apply in_map.
Qed.
Lemma universe_InvU P st : Inv st -> InvU (universe P st) st.
Proof. intro H. split; auto. intros x Hx. unfold universe. apply in_app_iff. auto. Qed.
Lemma pend_le U st : pend U st <= length U.
Proof. unfold pend. induction U as [|x U IH]; cbn; auto. destruct (negb _); cbn; lia. Qed.

Lemma get_good P st id : Inv st -> good (snd (get P st id)).
Proof.
  intro H. apply (get_f_good P (universe P st) (universe_ok P st)); [now apply universe_InvU|].
  pose proof (pend_le (universe P st) st). lia.
Qed.

(* more fuel does not change a result *)
Lemma run_actions_mono P g g' : (forall st id, snd (g st id) <> OutOfFuel -> g' st id = g st id) ->
  forall acts st, snd (run_actions g P st acts) <> OutOfFuel -> run_actions g' P st acts = run_actions g P st acts.
Proof.
  intro G. induction acts as [|a acts IH]; intros st H; auto. rewrite (run_actions_cons g P st a acts) in *.
  rewrite (run_actions_cons g' P st a acts).
  assert (E : snd (run_actions g P st [a]) <> OutOfFuel -> run_actions g' P st [a] = run_actions g P st [a]).
  { cbn [run_actions]. destruct a as [i|i l|i al|k|]; auto.
    - intro H1. rewrite G; auto. intro C. apply H1. destruct (g st i) as (st1 & r). cbn in C. subst r. reflexivity.
    - destruct (nth_error (p_templates P) k) as [(i & l)|]; auto.
      destruct (if existsb (Nat.eqb k) (r_flags st) then (st, Ok tt) else radd (set_rflags st (k :: r_flags st)) i l) as (st1 & r1).
      destruct r1; auto. intro H1. rewrite G; auto. intro C. apply H1. destruct (g st1 i) as (st2 & r). cbn in C. subst r. reflexivity. }
  destruct (run_actions g P st [a]) as (st1 & r) eqn:E1. rewrite E.
  - destruct r; auto.
  - intro C. cbn in C. subst r. apply H. reflexivity.
Qed.
Lemma get_f_mono P : forall n m st id, n <= m -> snd (get_f n P st id) <> OutOfFuel -> get_f m P st id = get_f n P st id.
Proof.
  induction n as [|n IH]; intros m st id0 L H; [exfalso; apply H; reflexivity|].
  destruct m as [|m]; [lia|]. cbn [get_f] in *. destruct (afind (resolve st id0) (r_types st)); auto.
  destruct (resolve st id0) as [|a id]; auto. destruct (afind (a :: id) (r_loaders st)) as [l|]; auto.
  rewrite (run_actions_mono P (get_f n P) (get_f m P)); auto.
  - intros st' id' H'. apply IH; auto. lia.
  - intro C. apply H. destruct (run_actions _ _ _ _) as (st' & r). cbn in C. subst r. reflexivity.
Qed.

Lemma get_any_fuel P st id n : Inv st -> length (universe P st) < n -> get_f n P st id = get P st id.
Proof.
  intros H L. apply get_f_mono; [lia|]. pose proof (get_good P st id H) as G.
  unfold get in G. destruct (snd (get_f _ P st id)); cbn in G; try discriminate; contradiction.
Qed.

(* ---- resolution ---- *)
Lemma names_resolve st id i : Inv st -> (names st id i <-> resolve st id = i).
Proof.
  intro H. unfold names, resolve. destruct (i_alias _ H) as (ND & _).
  destruct (afind id (r_aliases st)) as [j|] eqn:E.
  - split.
    + intros [Hi|(_ & Hi)]; [rewrite (In_afind_NoDup _ _ _ ND Hi) in E; congruence|].
      exfalso. apply Hi. exact (afind_Some_key _ _ _ E).
    + intros <-. left. now apply afind_In.
  - apply afind_None in E. split.
    + intros [Hi|(-> & _)]; auto. exfalso. apply E. unfold akeys. apply in_map_iff. exists (id, i). auto.
    + intros ->. right. split; auto.
Qed.

Lemma get_hit n P st id t : afind (resolve st id) (r_types st) = Some t -> get_f (Datatypes.S n) P st id = (st, Ok t).
Proof. intro E. cbn [get_f]. now rewrite E. Qed.

Lemma get_f_Ok n P st id st' t : Inv st -> get_f n P st id = (st', Ok t) ->
  afind (resolve st id) (r_types st') = Some t /\ Inv st' /\ rext st st'.
Proof.
  intros H E. split; [|split; [|]].
  - destruct n as [|n]; cbn [get_f] in E; [discriminate|].
    destruct (afind (resolve st id) (r_types st)) as [t'|] eqn:Et.
    { injection E as <- <-. auto. }
    destruct (resolve st id) as [|a i] eqn:Er; [discriminate|].
    destruct (afind (a :: i) (r_loaders st)) as [l|] eqn:El; [|discriminate].
    assert (H1 : Inv (rnewtype st (a :: i) l)) by (apply (pr_new _ _ Inv_pres); auto; discriminate).
    pose proof (actions_rext P n (loader_code P l) _ H1) as R.
    destruct (run_actions (get_f n P) P (rnewtype st (a :: i) l) (loader_code P l)) as (st1 & r). cbn [fst] in R.
    injection E as <- E. destruct r; try discriminate. cbn in E. injection E as <-.
    apply (x_types _ _ R). cbn. rewrite afind_app, Et. cbn. now rewrite str_eqb_refl, N.eqb_refl.
  - pose proof (get_Inv n P st id H) as X. now rewrite E in X.
  - pose proof (get_rext n P st id H) as X. now rewrite E in X.
Qed.

(* ---- small steps ---- *)
Inductive tsteps (P : prog) : rstate * thread -> rstate * thread -> Prop :=
| ts_refl c : tsteps P c c
| ts_step st ks st' th c : tstep P st ks = (st', th) -> tsteps P (st', th) c -> tsteps P (st, Running ks) c.

Lemma tsteps_trans P a b c : tsteps P a b -> tsteps P b c -> tsteps P a c.
Proof. induction 1; auto. intro. eapply ts_step; eauto. Qed.

Definition after {A} (r : outcome A) (t : tptr) (ks : list frame) : thread :=
  match r with Ok _ => ret t ks | Abort => Finished Abort | Throw => Finished Throw | UB => Finished UB | OutOfFuel => Finished OutOfFuel end.
Definition after_get (r : outcome tptr) (ks : list frame) : thread :=
  match r with Ok t => ret t ks | Abort => Finished Abort | Throw => Finished Throw | UB => Finished UB | OutOfFuel => Finished OutOfFuel end.

Lemma aset_ahas {V} k (m : list (str * V)) v : afind k m = Some v -> ahas k m = true.
Proof. unfold ahas. now intros ->. Qed.

Lemma big_small P : forall n st id ks, Inv st -> good (snd (get_f n P st id)) ->
  tsteps P (st, Running (KGet id :: ks)) (fst (get_f n P st id), after_get (snd (get_f n P st id)) ks).
Proof.
  induction n as [|n IH]; intros st id0 ks H G; [destruct G|]. cbn [get_f] in *.
  eapply ts_step; [reflexivity|].
  destruct (afind (resolve st id0) (r_types st)) as [t|] eqn:Et.
  { eapply ts_step; [cbn [tstep]; rewrite Et; reflexivity|]. apply ts_refl. }
  eapply ts_step; [cbn [tstep]; rewrite Et; reflexivity|].
  destruct (resolve st id0) as [|a id] eqn:Er.
  { eapply ts_step; [reflexivity|]. apply ts_refl. }
  destruct (afind (a :: id) (r_loaders st)) as [l|] eqn:El.
  2: { eapply ts_step; [cbn [tstep]; rewrite El; reflexivity|]. apply ts_refl. }
  eapply ts_step; [cbn [tstep]; rewrite El; reflexivity|].
  eapply ts_step; [cbn [tstep]; rewrite (aset_ahas _ _ _ El); reflexivity|].
  eapply ts_step.
  { cbn [tstep]. cbn [r_types set_rloaders]. unfold ahas. rewrite Et. reflexivity. }
  change (set_rtypes (set_rloaders st (aerase (a :: id) (r_loaders st)))
    (r_types (set_rloaders st (aerase (a :: id) (r_loaders st))) ++ [(a :: id, length (r_objs (set_rloaders st (aerase (a :: id) (r_loaders st)))))])
    (r_objs (set_rloaders st (aerase (a :: id) (r_loaders st))) ++ [a :: id])
    (r_log (set_rloaders st (aerase (a :: id) (r_loaders st))) ++ [(a :: id, l)])) with (rnewtype st (a :: id) l).
  change (length (r_objs (set_rloaders st (aerase (a :: id) (r_loaders st))))) with (length (r_objs st)).
  assert (H1 : Inv (rnewtype st (a :: id) l)) by (apply (pr_new _ _ Inv_pres); auto; discriminate).
  assert (GA : forall acts st1 t ks1, Inv st1 -> good (snd (run_actions (get_f n P) P st1 acts)) ->
    tsteps P (st1, Running (KRun t acts :: ks1)) (fst (run_actions (get_f n P) P st1 acts), after (snd (run_actions (get_f n P) P st1 acts)) t ks1)).
  { clear -IH. induction acts as [|x acts IHa]; intros st1 t ks1 H1 G.
    - eapply ts_step; [reflexivity|]. apply ts_refl.
    - rewrite run_actions_cons in *.
      pose proof (actions_Inv P n [x] st1 H1) as H2.
      assert (S1 : good (snd (run_actions (get_f n P) P st1 [x])) ->
         tsteps P (st1, Running (KRun t (x :: acts) :: ks1)) (fst (run_actions (get_f n P) P st1 [x]),
            match snd (run_actions (get_f n P) P st1 [x]) with Ok _ => Running (KRun t acts :: ks1) | Abort => Finished Abort
              | Throw => Finished Throw | UB => Finished UB | OutOfFuel => Finished OutOfFuel end)).
      { cbn [run_actions]. destruct x as [i|i k|i al|k|]; intro G1.
        - eapply ts_step; [reflexivity|]. specialize (IH st1 i (KRun t acts :: ks1) H1).
          destruct (get_f n P st1 i) as (st2 & r) eqn:Eg. cbn [fst snd] in IH.
          destruct r; cbn in G1; try contradiction; cbn [bind fst snd]; apply IH; exact I.
        - destruct (radd st1 i k) as (st2 & r) eqn:Eg.
          eapply ts_step; [cbn [tstep]; rewrite Eg; reflexivity|]. destruct r; apply ts_refl.
        - destruct (ralias st1 i al) as (st2 & r) eqn:Eg.
          eapply ts_step; [cbn [tstep]; rewrite Eg; reflexivity|]. destruct r; apply ts_refl.
        - destruct (nth_error (p_templates P) k) as [(i & l)|] eqn:Ek.
          + assert (Q1 : Inv (fst (if existsb (Nat.eqb k) (r_flags st1) then (st1, Ok tt)
                       else radd (set_rflags st1 (k :: r_flags st1)) i l))).
            { destruct (existsb _ _); auto. apply (pr_add _ _ Inv_pres); [exact I|]. now apply (pr_flags _ _ Inv_pres). }
            destruct (if existsb (Nat.eqb k) (r_flags st1) then (st1, Ok tt) else radd (set_rflags st1 (k :: r_flags st1)) i l) as (st2 & r1) eqn:E1.
            eapply ts_step; [cbn [tstep]; rewrite Ek, E1; reflexivity|]. cbn [fst] in Q1.
            destruct r1; cbn in G1; try contradiction; try apply ts_refl.
            specialize (IH st2 i (KRun t acts :: ks1) Q1).
            destruct (get_f n P st2 i) as (st3 & r) eqn:Eg. cbn [fst snd] in IH.
            destruct r; cbn in G1; try contradiction; cbn [bind fst snd]; apply IH; exact I.
          + eapply ts_step; [cbn [tstep]; rewrite Ek; reflexivity|]. apply ts_refl.
        - eapply ts_step; [reflexivity|]. apply ts_refl. }
      destruct (run_actions (get_f n P) P st1 [x]) as (st2 & r) eqn:E1. cbn [fst snd] in *.
      destruct r as [u| | | |]; cbn [fst snd] in *; try (cbn in G; contradiction).
      + eapply tsteps_trans; [apply S1; exact I|]. apply IHa; auto.
      + apply S1. exact I. }
  specialize (GA (loader_code P l) (rnewtype st (a :: id) l) (length (r_objs st)) ks H1).
  destruct (run_actions (get_f n P) P (rnewtype st (a :: id) l) (loader_code P l)) as (st' & r). cbn [fst snd] in *.
  destruct r; cbn in G; try contradiction; cbn [bind after_get after] in *; apply GA; exact I.
Qed.

Lemma tsteps_finished P st r c : tsteps P (st, Finished r) c -> c = (st, Finished r).
Proof. inversion 1; auto. Qed.

Lemma tsteps_det P a b c : tsteps P a b -> tsteps P a c -> tsteps P b c \/ tsteps P c b.
Proof.
  intro H. revert c. induction H as [x|st ks st' th x E H IH]; intros c Hc; auto.
  inversion Hc as [|? ? st1 th1 ? E1 H1]; subst; [right; eapply ts_step; eauto|].
  rewrite E in E1. injection E1 as <- <-. auto.
Qed.

(* a lookup run without interruption computes get *)
Lemma small_get P st id st' r : Inv st -> tsteps P (st, Running [KGet id]) (st', Finished r) -> get P st id = (st', r).
Proof.
  intros H S. pose proof (get_good P st id H) as G. unfold get in *.
  pose proof (big_small P _ st id [] H G) as B. destruct (get_f _ P st id) as (st1 & r1) eqn:E. cbn [fst snd] in *.
  assert (F : exists r2, after_get r1 [] = Finished r2 /\ r2 = r1) by (destruct r1; cbn; eauto).
  destruct F as (r2 & F & ->). rewrite F in B.
  destruct (tsteps_det P _ _ _ S B) as [D|D]; apply tsteps_finished in D; congruence.
Qed.
Lemma get_small P st id : Inv st -> tsteps P (st, Running [KGet id]) (fst (get P st id), Finished (snd (get P st id))).
Proof.
  intro H. pose proof (get_good P st id H) as G. pose proof (big_small P _ st id [] H G) as B. unfold get in *.
  destruct (get_f _ P st id) as (st1 & r1). cbn [fst snd] in *. destruct r1; cbn in *; auto; contradiction.
Qed.

(* ---- locked executions are serial ---- *)
Lemma nth_set_same {A} (l : list A) i x y : nth_error l i = Some y -> nth_error (set_nth l i x) i = Some x.
Proof. revert i; induction l as [|z l IH]; intros [|i]; cbn; intro E; try discriminate; auto. Qed.
Lemma nth_set_other {A} (l : list A) i j x : i <> j -> nth_error (set_nth l i x) j = nth_error l j.
Proof. revert i j; induction l as [|z l IH]; intros [|i] [|j] N; cbn; auto; congruence. Qed.

Lemma serial_app P l1 l2 st : serial P st (l1 ++ l2) =
  (let '(st1, r1) := serial P st l1 in let '(st2, r2) := serial P st1 l2 in (st2, r1 ++ r2)).
Proof.
  revert st. induction l1 as [|(i & id) l1 IH]; intro st; cbn [app serial].
  - destruct (serial P st l2). reflexivity.
  - destruct (get P st id) as (st1 & r). rewrite IH. destruct (serial P st1 l1) as (st2 & r1).
    destruct (serial P st2 l2). reflexivity.
Qed.
Lemma serial_Inv P l : forall st, Inv st -> Inv (fst (serial P st l)).
Proof.
  induction l as [|(i & id) l IH]; intros st H; cbn [serial]; auto.
  pose proof (get_Inv (Datatypes.S (length (universe P st))) P st id H) as H1. fold (get P st id) in H1.
  destruct (get P st id) as (st1 & r). cbn [fst] in H1. specialize (IH st1 H1). destruct (serial P st1 l). exact IH.
Qed.
Lemma serial_keys P l : forall st, map fst (snd (serial P st l)) = map fst l.
Proof.
  induction l as [|(i & id) l IH]; intro st; cbn [serial]; auto.
  destruct (get P st id) as (st1 & r). specialize (IH st1). destruct (serial P st1 l). cbn in *. congruence.
Qed.

(* done so far: the lookups of `ord`, one after the other *)
Record quiet (P : prog) (st0 : rstate) (ids : list str) (ord : list (nat * str)) (st : rstate) (ths : list thread) (busy : option nat) : Prop := {
  q_ids : forall i id, In (i, id) ord -> nth_error ids i = Some id;
  q_nodup : NoDup (map fst ord);
  q_state : fst (serial P st0 ord) = st;
  q_res : forall i r, In (i, r) (snd (serial P st0 ord)) -> nth_error ths i = Some (Finished r);
  q_wait : forall i id, nth_error ids i = Some id -> ~ In i (map fst ord) -> busy <> Some i -> nth_error ths i = Some (Running [KGet id]);
  q_len : length ths = length ids }.

Lemma length_set_nth {A} (l : list A) i x : length (set_nth l i x) = length l.
Proof. revert i; induction l as [|y l IH]; intros [|i]; cbn; auto. Qed.

Definition lock_inv (P : prog) (st0 : rstate) (ids : list str) (c : machine * option nat) : Prop :=
  let '((st, ths), own) := c in
  match own with
  | None => exists ord, quiet P st0 ids ord st ths None
  | Some i => exists ord st1 id th, quiet P st0 ids ord st1 ths (Some i) /\ nth_error ids i = Some id /\ ~ In i (map fst ord) /\
      nth_error ths i = Some th /\ tsteps P (st1, Running [KGet id]) (st, th)
  end.

Lemma lock_inv_step P st0 ids c c' : Inv st0 -> lock_inv P st0 ids c -> locked_step P c c' -> lock_inv P st0 ids c'.
Proof.
  intros H0 L S. destruct S as [st ths i id Ei|st ths i ks st' th Ei Et|st ths i r Ei]; cbn [lock_inv] in *.
  - destruct L as (ord & Q). assert (Li : i < length ids) by (rewrite <- (q_len _ _ _ _ _ _ _ Q); apply nth_error_Some; congruence).
    destruct (nth_error ids i) as [id'|] eqn:Eid; [|apply nth_error_None in Eid; lia].
    assert (NI : ~ In i (map fst ord)).
    { intro Hi. rewrite <- (serial_keys P ord st0) in Hi. apply in_map_iff in Hi as ((i' & r) & <- & Hi).
      apply (q_res _ _ _ _ _ _ _ Q) in Hi. cbn in Ei. congruence. }
    pose proof (q_wait _ _ _ _ _ _ _ Q i id' Eid NI ltac:(discriminate)) as Hw.
    exists ord, st, id', (Running [KGet id']). split; [|split; [auto|split; [auto|split; [auto|apply ts_refl]]]].
    destruct Q. constructor; auto. intros. apply q_wait0; auto. discriminate.
  - destruct L as (ord & st1 & id & th0 & Q & Eid & NI & Eth & T). assert (th0 = Running ks) by congruence; subst th0.
    exists ord, st1, id, th. split; [|split; [auto|split; [auto|split]]].
    + destruct Q. constructor; auto.
      * intros j r Hj. rewrite nth_set_other; auto. intros <-. apply NI. rewrite <- (serial_keys P ord st0). apply in_map_iff. exists (i, r). auto.
      * intros j idj Ej Nj Bj. rewrite nth_set_other; [auto|]. congruence.
      * now rewrite length_set_nth.
    + eapply nth_set_same; eauto.
    + eapply tsteps_trans; [exact T|]. eapply ts_step; [exact Et|apply ts_refl].
  - destruct L as (ord & st1 & id & th0 & Q & Eid & NI & Eth & T). assert (th0 = Finished r) by congruence; subst th0.
    assert (H1 : Inv st1) by (rewrite <- (q_state _ _ _ _ _ _ _ Q); now apply serial_Inv).
    pose proof (small_get P _ _ _ _ H1 T) as G.
    exists (ord ++ [(i, id)]). destruct Q.
    assert (SE : serial P st0 (ord ++ [(i, id)]) = (st, snd (serial P st0 ord) ++ [(i, r)])).
    { rewrite serial_app. destruct (serial P st0 ord) as (s1 & rs). cbn [fst snd] in *. subst s1. cbn [serial]. rewrite G. reflexivity. }
    constructor.
    + intros j idj Hj. apply in_app_iff in Hj as [Hj|[Hj|[]]]; auto. congruence.
    + rewrite map_app. apply NoDup_snoc; auto.
    + rewrite SE. reflexivity.
    + rewrite SE. cbn [snd]. intros j rj Hj. apply in_app_iff in Hj as [Hj|[Hj|[]]]; auto. congruence.
    + intros j idj Ej Nj _. apply q_wait0; auto.
      * intro Hj. apply Nj. rewrite map_app, in_app_iff. auto.
      * intro Hj. injection Hj as <-. apply Nj. rewrite map_app, in_app_iff. right. now left.
    + auto.
Qed.

Lemma lock_inv_steps P st0 ids c c' : Inv st0 -> lock_inv P st0 ids c -> steps (locked_step P) c c' -> lock_inv P st0 ids c'.
Proof. intros H0 L S. induction S; auto. apply IHS. eapply lock_inv_step; eauto. Qed.

Lemma lock_inv_init P st0 ids : lock_inv P st0 ids ((st0, map (fun id => Running [KGet id]) ids), None).
Proof.
  exists []. constructor; cbn; auto.
  - intros i id [].
  - constructor.
  - intros i r [].
  - intros i id E _ _. rewrite nth_error_map, E. reflexivity.
  - apply map_length.
Qed.

(* ---- first loader wins ---- *)
Lemma first_wins_pres i l : preserved anyadd (fun st => Inv st /\
  ((afind i (r_loaders st) = Some l /\ afind i (r_types st) = None /\ ~ In i (map fst (r_log st))) \/
   (In (i, l) (r_log st) /\ exists t, afind i (r_types st) = Some t))).
Proof.
  constructor.
  - intros st id l' _ (H & D). split; [apply (pr_add _ _ Inv_pres); auto; exact I|].
    assert (D' : (afind i (r_loaders (if ahas id (r_loaders st) then st else set_rloaders st (r_loaders st ++ [(id, l')]))) = Some l /\
        afind i (r_types st) = None /\ ~ In i (map fst (r_log st))) \/ (In (i, l) (r_log st) /\ exists t, afind i (r_types st) = Some t)).
    { destruct D as [(D1 & D2)|D]; auto. left. split; auto. destruct (ahas id (r_loaders st)); auto. cbn. now rewrite afind_app, D1. }
    destruct (radd_cases st id l' (i_scopes _ H)) as [(S' & ES & Ne & ->)|[(_ & ->)|(Ne & _ & ->)]]; cbn [fst]; auto.
    + destruct (ahas id (r_loaders st)); exact D'.
    + destruct (ahas id (r_loaders st)); exact D'.
  - intros st id al (H & D). split; [now apply (pr_alias _ _ Inv_pres)|]. unfold ralias.
    destruct id as [|a id]; auto. destruct al as [|b al]; auto. destruct (ahas (b :: al) (r_aliases st)); auto.
  - intros st id l' (H & D) Et El Ne. split; [now apply (pr_new _ _ Inv_pres)|]. cbn.
    destruct (str_dec i id) as [->|Nq].
    + destruct D as [(D1 & D2 & D3)|(D1 & t & D2)]; [|congruence]. right. split.
      * apply in_app_iff. right. left. congruence.
      * exists (length (r_objs st)). rewrite afind_app, Et. cbn. now rewrite str_eqb_refl.
    + destruct D as [(D1 & D2 & D3)|(D1 & t & D2)].
      * left. split; [now rewrite afind_aerase_other|]. split.
        -- rewrite afind_app, D2. cbn. destruct (str_eqb_spec i id); congruence.
        -- rewrite map_app, in_app_iff. cbn. intuition congruence.
      * right. split; [apply in_app_iff; auto|]. exists t. now rewrite afind_app, D2.
  - intros st x (H & D). split; [now apply (pr_flags _ _ Inv_pres)|]. exact D.
Qed.

Lemma objs_NoDup st : Inv st -> NoDup (r_objs st).
Proof.
  intro H. apply NoDup_nth_error. intros i j Li E.
  destruct (nth_error (r_objs st) i) as [id|] eqn:Ei; [|apply nth_error_None in Ei; lia].
  symmetry in E. apply (i_obj _ H) in Ei, E. congruence.
Qed.

Lemma scopes_of_radd st id l : Inv st -> forall st', radd st id l = (st', Ok tt) ->
  forall x c, Forall component (x ++ [c]) -> id = qname (x ++ [c]) -> vtype (r_scopes st') x c.
Proof.
  intros H st' E x c F ->. destruct (radd_cases st (qname (x ++ [c])) l (i_scopes _ H)) as [(S' & ES & Ne & E1)|[(_ & E1)|(Ne & _ & E1)]];
    rewrite E in E1; try discriminate. injection E1 as ->. cbn.
  assert (N : x ++ [c] <> []) by (destruct x; discriminate).
  destruct (ProofScope3.addType_views _ _ _ (Splits_qname _ N F) (r_scopes st) 0 [] (i_scopes _ H) eq_refl (Datatypes.S (length (qname (x ++ [c])))))
    as [(_ & A)|(_ & S1 & A & _ & _ & _ & T & _)]; [lia| |]; unfold addType in ES; rewrite ES in A; [discriminate|].
  injection A as ->. apply T. right. auto.
Qed.
