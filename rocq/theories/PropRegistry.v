(* PropRegistry.v - C17-C22: the type registry *)
From Coq Require String.
Import String.StringSyntax.
From Verif Require Import Base ModelCore ModelScope SpecScope ProofScope2 ProofScope4 ModelRegistry SpecRegistry ProofRegistry1 ProofRegistry2.
Local Open Scope outcome_scope.

Lemma reachable_Inv P st : reachable P st -> Inv st.
Proof. intros (h & ->). apply run_Inv, rinit_Inv. Qed.

(* A program with mutually recursive types A (0) and B (1), a self referencing
   template instance vec (2) and a loader that fails (3). *)
Definition exProg : prog := Prog
  [[AGet (lit "B")]; [AGet (lit "A"); AUse 0]; [AGet (lit "vec"); AGet (lit "A")]; [AGet (lit "A"); AFail]]
  [(lit "vec", 2)].
Definition exHist : list action :=
  [AAdd (lit "A") 0; AAdd (lit "B") 1; AAdd (lit "bad") 3; AAlias (lit "B") (lit "bee"); AAdd (lit "A") 3].
Definition exReg := run exProg rinit exHist.

(* ===== C17 ===== *)
(* a lookup that succeeded is repeated by every later lookup that designates the
   same id, whatever happened in between, and changes nothing *)
Theorem c17_same_object_forever : forall P s id s1 t h id' i, reachable P s ->
  get P s id = (s1, Ok t) -> names s id i -> names (run P s1 h) id' i ->
  get P (run P s1 h) id' = (run P s1 h, Ok t) /\ object_id (run P s1 h) t i.
Proof.
  intros P s id s1 t h id' i R E N N'. pose proof (reachable_Inv _ _ R) as H.
  destruct (get_f_Ok _ _ _ _ _ _ H E) as (E1 & H1 & _). pose proof (run_Inv P s1 h H1) as H2.
  apply (names_resolve _ _ _ H) in N. apply (names_resolve _ _ _ H2) in N'. subst i.
  pose proof (x_types _ _ (run_rext P s1 h H1) _ _ E1) as E2. split.
  - apply get_hit. congruence.
  - now apply (i_obj _ H2).
Qed.
Print Assumptions c17_same_object_forever.

(* the object returned is the one of the designated id *)
Theorem c17_object_of_requested_id : forall P s id s1 t i, reachable P s ->
  get P s id = (s1, Ok t) -> names s id i -> object_id s1 t i /\ has_type s1 i.
Proof.
  intros P s id s1 t i R E N. pose proof (reachable_Inv _ _ R) as H.
  destruct (get_f_Ok _ _ _ _ _ _ H E) as (E1 & H1 & _). apply (names_resolve _ _ _ H) in N. subst i. split.
  - now apply (i_obj _ H1).
  - exact (afind_Some_key _ _ _ E1).
Qed.
Print Assumptions c17_object_of_requested_id.

(* distinct ids never share an object, at whatever moments they are looked up *)
Theorem c17_distinct_ids_distinct_objects : forall P s id s1 t h id' s2 i i', reachable P s ->
  get P s id = (s1, Ok t) -> names s id i ->
  get P (run P s1 h) id' = (s2, Ok t) -> names (run P s1 h) id' i' -> i = i'.
Proof.
  intros P s id s1 t h id' s2 i i' R E N E' N'. pose proof (reachable_Inv _ _ R) as H.
  destruct (get_f_Ok _ _ _ _ _ _ H E) as (E1 & H1 & _). pose proof (run_Inv P s1 h H1) as H2.
  destruct (get_f_Ok _ _ _ _ _ _ H2 E') as (E3 & H3 & X3).
  apply (names_resolve _ _ _ H) in N. apply (names_resolve _ _ _ H2) in N'. subst i i'.
  pose proof (x_types _ _ (run_rext P s1 h H1) _ _ E1) as E2. pose proof (x_types _ _ X3 _ _ E2) as E4.
  apply (i_obj _ H3) in E3, E4. congruence.
Qed.
Print Assumptions c17_distinct_ids_distinct_objects.

Example c17_ex : reachable exProg exReg /\
  snd (get exProg exReg (lit "bee")) = Ok 0 /\ snd (get exProg exReg (lit "A")) = Ok 0 /\
  r_objs (fst (get exProg exReg (lit "bee"))) = [lit "B"; lit "A"; lit "vec"] /\
  names exReg (lit "bee") (lit "B") /\
  snd (get exProg (fst (get exProg exReg (lit "bee"))) (lit "A")) = Ok 1.
Proof. split; [exists exHist; reflexivity|]. repeat split. left. vm_compute. auto. Qed.

(* ===== C18 ===== *)
(* the trace of loader invocations never mentions an id twice, and each created
   object had its loader run *)
Theorem c18_loader_at_most_once : forall P s, reachable P s ->
  NoDup (map fst (r_log s)) /\ NoDup (r_objs s) /\ map fst (r_log s) = r_objs s.
Proof.
  intros P s R. pose proof (reachable_Inv _ _ R) as H. rewrite (i_log _ H). split; [|split]; auto using objs_NoDup.
Qed.
Print Assumptions c18_loader_at_most_once.

(* with several loaders registered before the first lookup, the first one is the
   one that runs *)
Theorem c18_first_loader_wins : forall P s id l h, reachable P s -> id <> [] ->
  ~ has_type s id -> ~ has_loader s id ->
  forall l', In (id, l') (r_log (run P (fst (radd s id l)) h)) -> l' = l.
Proof.
  intros P s id l h R Ne NT NL l' Hin. pose proof (reachable_Inv _ _ R) as H.
  assert (NL' : afind id (r_loaders s) = None) by now apply afind_None.
  assert (NT' : afind id (r_types s) = None) by now apply afind_None.
  assert (NG : ~ In id (map fst (r_log s))).
  { rewrite (i_log _ H). intro Hi. apply In_nth_error in Hi as (t & Ht). apply (i_obj _ H) in Ht. congruence. }
  set (I := fun st => Inv st /\
  ((afind id (r_loaders st) = Some l /\ afind id (r_types st) = None /\ ~ In id (map fst (r_log st))) \/
   (In (id, l) (r_log st) /\ exists t, afind id (r_types st) = Some t))).
  assert (B : I (fst (radd s id l))).
  { split; [apply (pr_add _ _ Inv_pres); auto; exact Logic.I|]. left.
    assert (AF : afind id (r_loaders s ++ [(id, l)]) = Some l) by (rewrite afind_app, NL'; cbn; now rewrite str_eqb_refl).
    destruct (radd_cases s id l (i_scopes _ H)) as [(S' & _ & _ & ->)|[(-> & _)|(_ & _ & ->)]]; [|congruence|];
      cbn [fst]; unfold ahas; rewrite NL'; cbn; auto. }
  pose proof (run_pres _ _ P (prog_any P) (first_wins_pres id l) h _ (acts_any h) B) as (H2 & D).
  pose proof (objs_NoDup _ H2) as ND. rewrite <- (i_log _ H2) in ND. destruct D as [(_ & _ & D)|(D & _)].
  - exfalso. apply D. apply in_map_iff. exists (id, l'). auto.
  - apply (In_afind_NoDup _ _ _ ND) in Hin. apply (In_afind_NoDup _ _ _ ND) in D. congruence.
Qed.
Print Assumptions c18_first_loader_wins.

(* a successful lookup means the loader of that id has run, exactly once *)
Theorem c18_loaded_by_its_loader : forall P s id s1 t i, reachable P s -> get P s id = (s1, Ok t) -> names s id i ->
  exists l log1 log2, r_log s1 = log1 ++ (i, l) :: log2 /\ ~ In i (map fst (log1 ++ log2)).
Proof.
  intros P s id s1 t i R E N. pose proof (reachable_Inv _ _ R) as H.
  destruct (get_f_Ok _ _ _ _ _ _ H E) as (E1 & H1 & _). apply (names_resolve _ _ _ H) in N. subst i.
  apply (i_obj _ H1) in E1. apply nth_error_In in E1. rewrite <- (i_log _ H1) in E1.
  apply in_map_iff in E1 as ((i & l) & Ei & Hin). cbn in Ei. subst i. apply in_split in Hin as (log1 & log2 & E2).
  exists l, log1, log2. split; auto. pose proof (objs_NoDup _ H1) as ND. rewrite <- (i_log _ H1), E2, map_app in ND. cbn in ND.
  apply NoDup_remove_2 in ND. now rewrite map_app.
Qed.
Print Assumptions c18_loaded_by_its_loader.

Example c18_ex : r_log (run exProg exReg [AGet (lit "bee"); AGet (lit "A"); AAdd (lit "A") 3; AGet (lit "A"); AUse 0])
  = [(lit "B", 1); (lit "A", 0); (lit "vec", 2)] /\ ~ has_type exReg (lit "new") /\ ~ has_loader exReg (lit "new").
Proof. split; [reflexivity|]. split; vm_compute; intuition discriminate. Qed.

(* ===== C19 ===== *)
(* every lookup ends, with a type or an error; the number of nested loads is at
   most the number of ids that can have a loader *)
Theorem c19_terminates : forall P s id, reachable P s ->
  exists s1 r, (forall n, length (universe P s) < n -> get_f n P s id = (s1, r)) /\
    ((exists t, r = Ok t) \/ r = Abort).
Proof.
  intros P s id R. pose proof (reachable_Inv _ _ R) as H. exists (fst (get P s id)), (snd (get P s id)). split.
  - intros n L. rewrite (get_any_fuel P s id n H L). now destruct (get P s id).
  - pose proof (get_good P s id H) as G. destruct (snd (get P s id)); cbn in G; try contradiction; eauto.
Qed.
Print Assumptions c19_terminates.

(* at every point of the run of the loader of i, looking i up gives the object
   being built, without running anything *)
Theorem c19_running_loader_sees_its_type : forall P s i l n acts1 acts2, reachable P s ->
  ~ has_type s i -> In (i, l) (r_loaders s) -> i <> [] -> loader_code P l = acts1 ++ acts2 ->
  let s1 := fst (run_actions (get_f n P) P (rnewtype s i l) acts1) in
  names s1 i i -> get P s1 i = (s1, Ok (length (r_objs s))) /\ object_id s1 (length (r_objs s)) i.
Proof.
  intros P s i l n acts1 acts2 R NT Hl Ne _ s1 N. pose proof (reachable_Inv _ _ R) as H.
  assert (Et : afind i (r_types s) = None) by now apply afind_None.
  assert (El : afind i (r_loaders s) = Some l) by (apply In_afind_NoDup; auto; apply (i_loaders _ H)).
  assert (H1 : Inv (rnewtype s i l)) by now apply (pr_new _ _ Inv_pres).
  pose proof (actions_Inv P n acts1 _ H1) as H2. pose proof (actions_rext P n acts1 _ H1) as X. fold s1 in H2, X.
  assert (E : afind i (r_types s1) = Some (length (r_objs s))).
  { apply (x_types _ _ X). cbn. rewrite afind_app, Et. cbn. now rewrite str_eqb_refl. }
  apply (names_resolve _ _ _ H2) in N. split; [apply get_hit; rewrite N; exact E|now apply (i_obj _ H2)].
Qed.
Print Assumptions c19_running_loader_sees_its_type.

Example c19_ex : (* A needs B needs A; vec needs itself *)
  snd (get exProg exReg (lit "A")) = Ok 0 /\ r_objs (fst (get exProg exReg (lit "A"))) = [lit "A"; lit "B"; lit "vec"].
Proof. split; reflexivity. Qed.

(* ===== C20 ===== *)
Theorem c20_alias_is_its_target : forall P s id a s1 h, reachable P s -> ralias s id a = (s1, Ok tt) ->
  let s2 := run P s1 h in
  ~ In id (map fst (r_aliases s2)) -> names s2 a id /\ get P s2 a = get P s2 id.
Proof.
  intros P s id a s1 h R E s2 N. pose proof (reachable_Inv _ _ R) as H.
  assert (H1 : Inv s1) by (pose proof (pr_alias _ _ Inv_pres s id a H) as X; now rewrite E in X).
  assert (H2 : Inv s2) by now apply run_Inv.
  assert (E1 : afind a (r_aliases s1) = Some id).
  { unfold ralias in E. destruct id as [|x id]; [discriminate|]. destruct a as [|y a]; [discriminate|].
    unfold ahas in E. destruct (afind (y :: a) (r_aliases s)) eqn:Ea; [discriminate|]. injection E as <-. cbn [r_aliases set_raliases].
    rewrite afind_app, Ea. cbn [afind]. now rewrite str_eqb_refl. }
  pose proof (x_aliases _ _ (run_rext P s1 h H1) _ _ E1) as E2. fold s2 in E2. split.
  - left. now apply afind_In.
  - unfold get. cbn [get_f].
    assert (Ra : resolve s2 a = id) by (unfold resolve; now rewrite E2).
    assert (Ri : resolve s2 id = id) by (unfold resolve; apply afind_None in N; now rewrite N).
    now rewrite Ra, Ri.
Qed.
Print Assumptions c20_alias_is_its_target.

Theorem c20_never_overwritten : forall P s id a s1 h id', reachable P s -> ralias s id a = (s1, Ok tt) ->
  let s2 := run P s1 h in In (a, id) (r_aliases s2) /\ ralias s2 id' a = (s2, Abort).
Proof.
  intros P s id a s1 h id' R E s2. pose proof (reachable_Inv _ _ R) as H.
  assert (H1 : Inv s1) by (pose proof (pr_alias _ _ Inv_pres s id a H) as X; now rewrite E in X).
  assert (E1 : afind a (r_aliases s1) = Some id).
  { unfold ralias in E. destruct id as [|x id]; [discriminate|]. destruct a as [|y a]; [discriminate|].
    unfold ahas in E. destruct (afind (y :: a) (r_aliases s)) eqn:Ea; [discriminate|]. injection E as <-. cbn [r_aliases set_raliases].
    rewrite afind_app, Ea. cbn [afind]. now rewrite str_eqb_refl. }
  pose proof (x_aliases _ _ (run_rext P s1 h H1) _ _ E1) as E2. fold s2 in E2. split; [now apply afind_In|].
  unfold ralias. destruct id'; auto. destruct a; auto. unfold ahas. now rewrite E2.
Qed.
Print Assumptions c20_never_overwritten.

Theorem c20_empty_names_rejected : forall s id a, ralias s [] a = (s, Abort) /\ ralias s id [] = (s, Abort).
Proof. intros s id a. split; auto. destruct id; auto. Qed.
Print Assumptions c20_empty_names_rejected.

(* and an alias for a name not yet aliased is accepted *)
Theorem c20_new_alias_accepted : forall s id a, id <> [] -> a <> [] -> ~ In a (map fst (r_aliases s)) ->
  exists s1, ralias s id a = (s1, Ok tt) /\ r_aliases s1 = r_aliases s ++ [(a, id)] /\
    r_types s1 = r_types s /\ r_loaders s1 = r_loaders s.
Proof.
  intros s id a Ni Na N. exists (set_raliases s (r_aliases s ++ [(a, id)])). split; auto.
  unfold ralias. destruct id; [congruence|]. destruct a; [congruence|]. apply afind_None in N. unfold ahas. now rewrite N.
Qed.
Print Assumptions c20_new_alias_accepted.

(* one level only: the target is looked up as an id even if it is itself an alias *)
Theorem c20_one_level : forall P s a b, reachable P s -> In (a, b) (r_aliases s) ->
  ~ has_type s b -> ~ has_loader s b -> get P s a = (s, Abort).
Proof.
  intros P s a b R Hin NT NL. pose proof (reachable_Inv _ _ R) as H.
  assert (Ra : resolve s a = b) by (apply (names_resolve _ _ _ H); now left).
  unfold get. cbn [get_f]. rewrite Ra. apply afind_None in NT, NL. rewrite NT, NL. now destruct b.
Qed.
Print Assumptions c20_one_level.

Example c20_ex : let s := run exProg exReg [AAlias (lit "bee") (lit "c")] in
  reachable exProg s /\ In (lit "c", lit "bee") (r_aliases s) /\ ~ has_type s (lit "bee") /\ ~ has_loader s (lit "bee") /\
  snd (get exProg s (lit "c")) = Abort /\ snd (get exProg s (lit "bee")) = Ok 0.
Proof.
  cbv zeta. split; [exists (exHist ++ [AAlias (lit "bee") (lit "c")]); unfold exReg, run; now rewrite fold_left_app|].
  split; [vm_compute; auto|]. split; [vm_compute; intuition discriminate|].
  split; [vm_compute; intuition discriminate|]. split; reflexivity.
Qed.

(* ===== C21 ===== *)
(* The code: the mutex is released before the tables are used.  Two threads make
   the first lookup of the same registered id; one of them fails although in both
   serial orders both succeed. *)
Definition raceProg : prog := Prog [[]] [].
Definition raceReg := run raceProg rinit [AAdd (lit "A") 0].
Theorem c21_race_refuted : exists P s id, reachable P s /\
  (exists s' t, steps (unlocked_step P) (s, [Running [KGet id]; Running [KGet id]]) (s', [Finished (Ok t); Finished Abort])) /\
  (exists s' t, serial P s [(0, id); (1, id)] = (s', [(0, Ok t); (1, Ok t)]) /\
                serial P s [(1, id); (0, id)] = (s', [(1, Ok t); (0, Ok t)])).
Proof.
  exists raceProg, raceReg, (lit "A"). split; [exists [AAdd (lit "A") 0]; reflexivity|]. split.
  - do 2 eexists.
    (* thread 0 up to the erase of the loader; then thread 1 to its end; then thread 0 *)
    do 4 (eapply steps_cons; [eapply (US _ _ _ 0); reflexivity|]; cbn [set_nth ret resolve]).
    do 3 (eapply steps_cons; [eapply (US _ _ _ 1); reflexivity|]; cbn [set_nth ret resolve]).
    do 2 (eapply steps_cons; [eapply (US _ _ _ 0); reflexivity|]; cbn [set_nth ret resolve]).
    apply steps_refl.
  - do 2 eexists. split; reflexivity.
Qed.
Print Assumptions c21_race_refuted.

(* ... and another interleaving erases the same table entry twice *)
Theorem c21_double_erase_refuted : exists P s id s' th, reachable P s /\
  steps (unlocked_step P) (s, [Running [KGet id]; Running [KGet id]]) (s', [th; Finished UB]).
Proof.
  exists raceProg, raceReg, (lit "A"). do 2 eexists. split; [exists [AAdd (lit "A") 0]; reflexivity|].
  do 3 (eapply steps_cons; [eapply (US _ _ _ 0); reflexivity|]; cbn [set_nth ret resolve]).
  do 3 (eapply steps_cons; [eapply (US _ _ _ 1); reflexivity|]; cbn [set_nth ret resolve]).
  do 1 (eapply steps_cons; [eapply (US _ _ _ 0); reflexivity|]; cbn [set_nth ret resolve]).
  do 1 (eapply steps_cons; [eapply (US _ _ _ 1); reflexivity|]; cbn [set_nth ret resolve]).
  apply steps_refl.
Qed.
Print Assumptions c21_double_erase_refuted.

(* What the code does guarantee: any number of concurrent lookups of ids whose
   types are already loaded, in any interleaving of their table accesses, leave the
   registry unchanged, and each one that has finished returned what a lone get()
   returns.  (c21_race_refuted: not so for a first lookup.) *)
Theorem c21_loaded_ids_serialise : forall P s0 ids s ths, reachable P s0 ->
  (forall id, In id ids -> exists i, names s0 id i /\ has_type s0 i) ->
  steps (unlocked_step P) (s0, map (fun id => Running [KGet id]) ids) (s, ths) ->
  s = s0 /\ length ths = length ids /\
  forall k id, nth_error ids k = Some id -> exists t, get P s0 id = (s0, Ok t) /\
    (nth_error ths k = Some (Finished (Ok t)) \/ exists ks, nth_error ths k = Some (Running ks) /\ ks <> []).
Proof.
  intros P s0 ids s ths R L S. pose proof (reachable_Inv _ _ R) as H.
  assert (T : forall id, In id ids -> exists t, afind (resolve s0 id) (r_types s0) = Some t).
  { intros id Hin. destruct (L id Hin) as (i & N & Hi). apply (names_resolve _ _ _ H) in N. subst i.
    destruct (afind (resolve s0 id) (r_types s0)) eqn:E; eauto. apply afind_None in E. contradiction. }
  set (J := fun c : machine => fst c = s0 /\ length (snd c) = length ids /\
     forall k id, nth_error ids k = Some id -> exists t, afind (resolve s0 id) (r_types s0) = Some t /\
       (nth_error (snd c) k = Some (Finished (Ok t)) \/ nth_error (snd c) k = Some (Running [KGet id]) \/
        nth_error (snd c) k = Some (Running [KType (resolve s0 id)]))).
  assert (J0 : J (s0, map (fun id => Running [KGet id]) ids)).
  { split; auto. split; [apply map_length|]. intros k id E. destruct (T id (nth_error_In _ _ E)) as (t & Et).
    exists t. split; auto. right. left. cbn. now rewrite nth_error_map, E. }
  assert (Jstep : forall c c', J c -> unlocked_step P c c' -> J c').
  { intros c c' (E1 & E2 & E3) U. destruct U as [st thr i ks st' th Ei Es]. cbn [fst snd] in *. subst st.
    assert (Hi : i < length ids) by (rewrite <- E2; apply nth_error_Some; congruence).
    destruct (nth_error ids i) as [idi|] eqn:Eid; [|apply nth_error_None in Eid; lia].
    destruct (E3 _ _ Eid) as (ti & Eti & Hth).
    assert (Q : st' = s0 /\ (th = Finished (Ok ti) \/ th = Running [KType (resolve s0 idi)])).
    { destruct Hth as [Q|[Q|Q]]; rewrite Ei in Q; [discriminate| |]; injection Q as ->; cbn [tstep] in Es.
      - injection Es as <- <-. auto.
      - rewrite Eti in Es. injection Es as <- <-. auto. }
    destruct Q as (-> & Qth). split; auto. split; [cbn; now rewrite length_set_nth|].
    intros k id Ek. cbn [snd]. destruct (Nat.eq_dec k i) as [->|Ne].
    - assert (id = idi) by congruence. subst id. exists ti. split; auto.
      rewrite (nth_set_same _ _ _ _ Ei). destruct Qth as [-> | ->]; auto.
    - rewrite nth_set_other by congruence. auto. }
  assert (JS : forall c c', steps (unlocked_step P) c c' -> J c -> J c').
  { induction 1; auto. intros; apply IHsteps; eauto. }
  destruct (JS _ _ S J0) as (E1 & E2 & E3). cbn [fst snd] in *. split; auto. split; auto.
  intros k id Ek. destruct (E3 _ _ Ek) as (t & Et & Q). exists t. split; [now apply get_hit|].
  destruct Q as [Q|[Q|Q]]; [auto|right|right]; eexists; (split; [exact Q|discriminate]).
Qed.
Print Assumptions c21_loaded_ids_serialise.
Example c21_loaded_ex : let s := run exProg exReg [AGet (lit "A")] in
  reachable exProg s /\ forall id, In id [lit "A"; lit "bee"; lit "A"] -> exists i, names s id i /\ has_type s i.
Proof.
  cbv zeta. split; [exists (exHist ++ [AGet (lit "A")]); unfold exReg, run; now rewrite fold_left_app|].
  intros id [<-|[<-|[<-|[]]]]; [exists (lit "A")|exists (lit "B")|exists (lit "A")]; (split; [|vm_compute; auto]).
  - right. split; auto. vm_compute; intuition discriminate.
  - left. vm_compute; auto.
  - right. split; auto. vm_compute; intuition discriminate.
Qed.

(* With the lock held from the start of the outermost lookup to its end, every
   execution of any number of threads is a serial one: at any moment when no
   thread holds the lock, the finished lookups have the state and the results of
   running them one after the other in some order. *)
Theorem c21_held_lock_serialises : forall P s0 ids s ths, reachable P s0 ->
  steps (locked_step P) ((s0, map (fun id => Running [KGet id]) ids), None) ((s, ths), None) ->
  exists order : list (nat * str),
    NoDup (map fst order) /\ (forall i id, In (i, id) order -> nth_error ids i = Some id) /\
    fst (serial P s0 order) = s /\
    (forall i r, In (i, r) (snd (serial P s0 order)) -> nth_error ths i = Some (Finished r)) /\
    (forall i id, nth_error ids i = Some id -> ~ In i (map fst order) -> nth_error ths i = Some (Running [KGet id])).
Proof.
  intros P s0 ids s ths R S. pose proof (reachable_Inv _ _ R) as H.
  pose proof (lock_inv_steps P s0 ids _ _ H (lock_inv_init P s0 ids) S) as (ord & Q). destruct Q.
  exists ord. split; [auto|]. split; [auto|]. split; [auto|]. split; [auto|].
  intros i id E N. apply q_wait; auto. discriminate.
Qed.
Print Assumptions c21_held_lock_serialises.

(* ... and no step of a thread is lost: run alone, a lookup takes finitely many
   steps and gives the result of get *)
Theorem c21_lookup_steps : forall P s id, reachable P s ->
  tsteps P (s, Running [KGet id]) (fst (get P s id), Finished (snd (get P s id))) /\
  forall s' r, tsteps P (s, Running [KGet id]) (s', Finished r) -> get P s id = (s', r).
Proof.
  intros P s id R. pose proof (reachable_Inv _ _ R) as H. split; [now apply get_small|].
  intros s' r T. now apply small_get.
Qed.
Print Assumptions c21_lookup_steps.

(* Holding the existing non-recursive mutex for the duration of each get would
   deadlock: a loader that looks another type up waits for its own thread. *)
Theorem c21_plain_mutex_deadlocks_refuted : exists P s id s' ks, reachable P s /\ (exists t, snd (get P s id) = Ok t) /\
  steps (mutex_step P) ((s, [Running [KGet id]]), None) ((s', [Running ks]), Some 0) /\
  forall c, ~ mutex_step P ((s', [Running ks]), Some 0) c.
Proof.
  exists exProg, exReg, (lit "A"). do 2 eexists. split; [exists exHist; reflexivity|]. split; [eexists; reflexivity|]. split.
  - eapply steps_cons; [eapply (MAcquire _ _ _ 0); reflexivity|].
    do 6 (eapply steps_cons; [eapply (MStep _ _ _ 0); reflexivity|]; cbn [set_nth ret resolve]).
    apply steps_refl.
  - intros c S. inversion S as [|? ? ? ks ? ? E W T|? ? ? r E]; subst; cbn in E; try discriminate.
    injection E as <-. discriminate.
Qed.
Print Assumptions c21_plain_mutex_deadlocks_refuted.

Example c21_ex : exists s ths, steps (locked_step raceProg) ((raceReg, map (fun id => Running [KGet id]) [lit "A"; lit "A"]), None) ((s, ths), None) /\
  ths = [Finished (Ok 0); Finished (Ok 0)].
Proof.
  do 2 eexists. split.
  - eapply steps_cons; [eapply (LAcquire _ _ _ 1); reflexivity|].
    do 6 (eapply steps_cons; [eapply (LStep _ _ _ 1); reflexivity|]; cbn [map set_nth ret resolve]).
    eapply steps_cons; [eapply (LRelease _ _ _ 1); reflexivity|].
    eapply steps_cons; [eapply (LAcquire _ _ _ 0); reflexivity|].
    do 2 (eapply steps_cons; [eapply (LStep _ _ _ 0); reflexivity|]; cbn [map set_nth ret resolve]).
    eapply steps_cons; [eapply (LRelease _ _ _ 0); reflexivity|]. apply steps_refl.
  - reflexivity.
Qed.

(* ===== C22 ===== *)
Theorem c22_missing_is_error : forall P s id i, reachable P s -> names s id i -> ~ has_type s i -> ~ has_loader s i ->
  get P s id = (s, Abort).
Proof.
  intros P s id i R N NT NL. pose proof (reachable_Inv _ _ R) as H. apply (names_resolve _ _ _ H) in N. subst i.
  unfold get. cbn [get_f]. apply afind_None in NT, NL. rewrite NT, NL. now destruct (resolve s id).
Qed.
Print Assumptions c22_missing_is_error.

(* a lookup fails only for a missing id, or because an action of the loader it
   runs fails *)
Theorem c22_failure_cases : forall P s id i s' r, reachable P s -> names s id i -> get P s id = (s', r) ->
  (forall t, r <> Ok t) ->
  r = Abort /\
  ((s' = s /\ ~ has_type s i /\ ~ has_loader s i) \/
   (exists l acts1 a acts2 s1, ~ has_type s i /\ In (i, l) (r_loaders s) /\ loader_code P l = acts1 ++ a :: acts2 /\
      run_actions (get_f (length (universe P s)) P) P (rnewtype s i l) acts1 = (s1, Ok tt) /\
      run_actions (get_f (length (universe P s)) P) P s1 [a] = (s', Abort))).
Proof.
  intros P s id i s' r R N E NO. pose proof (reachable_Inv _ _ R) as H.
  pose proof (get_good P s id H) as G. rewrite E in G. cbn in G.
  assert (Er : r = Abort) by (destruct r; cbn in G; try contradiction; auto; exfalso; exact (NO a eq_refl)). subst r.
  split; auto. apply (names_resolve _ _ _ H) in N. unfold get in E. cbn [get_f] in E. rewrite N in E.
  destruct (afind i (r_types s)) as [t|] eqn:Et; [discriminate|].
  destruct i as [|x i].
  { left. injection E as <-. split; auto. split; [now apply afind_None in Et|]. exact (proj2 (i_loaders _ H)). }
  destruct (afind (x :: i) (r_loaders s)) as [l|] eqn:El.
  2: { left. injection E as <-. split; auto. split; [now apply afind_None in Et|now apply afind_None in El]. }
  right. set (g := get_f (length (universe P s)) P) in *.
  assert (F : forall acts s0 s2, run_actions g P s0 acts = (s2, Abort) ->
     exists acts1 a acts2 s1, acts = acts1 ++ a :: acts2 /\ run_actions g P s0 acts1 = (s1, Ok tt) /\ run_actions g P s1 [a] = (s2, Abort)).
  { induction acts as [|a acts IH]; intros s0 s2 Ea; [discriminate|]. rewrite run_actions_cons in Ea.
    destruct (run_actions g P s0 [a]) as (s1 & r1) eqn:E1. destruct r1 as [[]| | | |]; try discriminate.
    - destruct (IH _ _ Ea) as (a1 & a' & a2 & s3 & -> & E2 & E3). exists (a :: a1), a', a2, s3. split; auto.
      split; auto. rewrite run_actions_cons, E1. auto.
    - injection Ea as <-. exists [], a, acts, s0. auto. }
  destruct (run_actions g P (rnewtype s (x :: i) l) (loader_code P l)) as (s2 & r2) eqn:E2.
  injection E as <- E. destruct r2; try discriminate.
  destruct (F _ _ _ E2) as (a1 & a' & a2 & s3 & D1 & D2 & D3). exists l, a1, a', a2, s3.
  split; [now apply afind_None in Et|]. split; [now apply afind_In|]. auto.
Qed.
Print Assumptions c22_failure_cases.

(* Not side effect free: a lookup whose loader fails leaves the half built type
   registered, and the next lookup returns it (visible with exceptions enabled). *)
Theorem c22_failed_loader_leaves_type_refuted : exists P s id s1, reachable P s /\ get P s id = (s1, Abort) /\
  exists t, get P s1 id = (s1, Ok t) /\ ~ has_type s id /\ has_type s1 id.
Proof.
  exists exProg, exReg, (lit "bad"). eexists. split; [exists exHist; reflexivity|]. split; [reflexivity|].
  eexists. split; [reflexivity|]. split; vm_compute; intuition discriminate.
Qed.
Print Assumptions c22_failed_loader_leaves_type_refuted.

Example c22_ex : names exReg (lit "zzz") (lit "zzz") /\ ~ has_type exReg (lit "zzz") /\ ~ has_loader exReg (lit "zzz") /\
  snd (get exProg exReg (lit "bad")) = Abort.
Proof.
  split; [right; split; auto; vm_compute; intuition discriminate|].
  split; [vm_compute; intuition discriminate|]. split; [vm_compute; intuition discriminate|]. reflexivity.
Qed.

(* ===== C50 ===== *)
(* every id whose registration succeeded is a type of the global scope from then on *)
Theorem c50_registered_ids_are_listed : forall P s x c l s1 h, reachable P s -> Forall component (x ++ [c]) ->
  radd s (qname (x ++ [c])) l = (s1, Ok tt) ->
  exists names, types (r_scopes (run P s1 h)) 0 false = Ok names /\ (x = [] -> In c names) /\
    vtype (r_scopes (run P s1 h)) x c.
Proof.
  intros P s x c l s1 h R F E. pose proof (reachable_Inv _ _ R) as H.
  assert (H1 : Inv s1) by (pose proof (pr_add _ _ Inv_pres s (qname (x ++ [c])) l I H) as X; now rewrite E in X).
  pose proof (scopes_of_radd s _ l H s1 E x c F eq_refl) as V.
  pose proof (x_vtypes _ _ (run_rext P s1 h H1) _ _ V) as V2.
  pose proof (i_scopes _ (run_Inv P s1 h H1)) as W.
  destruct (ws_root _ W) as (r & Er & _). exists (map fst (s_types r)). unfold types. cbn [types_f]. rewrite Er. split; auto.
  split; auto. intros ->. destruct V2 as (p & sp & Ew & Es & Hin). cbn [walk] in Ew. injection Ew as <-.
  assert (sp = r) by congruence; subst sp. auto.
Qed.
Print Assumptions c50_registered_ids_are_listed.
Theorem c50_registered_ids_hasType : forall P s x c l s1 h, reachable P s -> Forall component (x ++ [c]) ->
  radd s (qname (x ++ [c])) l = (s1, Ok tt) ->
  hasType (r_scopes (run P s1 h)) 0 (qname (x ++ [c])) = Ok true \/
  (hasType (r_scopes (run P s1 h)) 0 (qname (x ++ [c])) = Abort /\
   exists c1 d c2, x = c1 ++ d :: c2 /\ vtype (r_scopes (run P s1 h)) c1 d).
Proof.
  intros P s x c l s1 h R F E. destruct (c50_registered_ids_are_listed P s x c l s1 h R F E) as (_ & _ & _ & V).
  pose proof (reachable_Inv _ _ R) as H.
  assert (H1 : Inv s1) by (pose proof (pr_add _ _ Inv_pres s (qname (x ++ [c])) l I H) as X; now rewrite E in X).
  pose proof (i_scopes _ (run_Inv P s1 h H1)) as W.
  assert (N : x ++ [c] <> []) by (destruct x; discriminate).
  destruct (hasType_views _ W _ _ _ (Splits_qname _ N F) 0 [] eq_refl (Datatypes.S (length (qname (x ++ [c])))))
    as [(T & Q)|[(_ & _ & Q)|(_ & T & _)]]; [lia|right; split; auto|left; auto|contradiction].
Qed.
Print Assumptions c50_registered_ids_hasType.
