(* ProofLoad.v - loading on demand: what a successful load leaves behind. *)
From Coq Require String.
Import String.StringSyntax.
From Coq Require Import Relations.
From Verif Require Import Base ModelCore SpecCore ProofCore ProofMatch ProofCore2 ModelPlumb SpecPlumb ProofPlumb ModelLoad SpecLoad.
Local Open Scope outcome_scope.

Lemma mentions_asks r U : mentions r U <-> In U (asks r).
Proof.
  split.
  - intros []; cbn; auto. right. now apply in_map.
  - destruct r as [p|n a off|t|[n|n ret args code|k p]]; cbn; intro I.
    + destruct I as [<-|[]]. constructor.
    + destruct I as [<-|[]]. constructor.
    + destruct I as [<-|[]]. constructor.
    + destruct I.
    + destruct I as [<-|I]; [constructor|]. apply in_map_iff in I as (a & <- & I). now constructor.
    + destruct I as [<-|[]]. constructor.
Qed.
Definition lapply (t : typerec) (r : lreg) : typerec :=
  match r with
  | LParent p => setParent t (Some p)
  | LField n a off => set_fields t (t_fields t ++ [(n, Field n a off [])])
  | LUse _ => t
  | LReg r => apply_reg t r
  end.
Definition lbuilt (id : str) (rs : list lreg) : typerec := fold_left lapply rs (newType id).
Lemma lbuilt_snoc id rs r : lbuilt id (rs ++ [r]) = lapply (lbuilt id rs) r.
Proof. unfold lbuilt. now rewrite fold_left_app. Qed.
Lemma regs_app a b : regs (a ++ b) = regs a ++ regs b.
Proof. unfold regs. now rewrite flat_map_app. Qed.

Lemma lbuilt_loaded id rs : let t := lbuilt id rs in let u := loaded id (regs rs) in
  t_id t = t_id u /\ t_traits t = t_traits u /\ t_pointer t = t_pointer u /\ t_pointee t = t_pointee u /\ t_fns t = t_fns u.
Proof.
  cbn zeta. induction rs as [|r rs IH] using rev_ind; [repeat split|].
  rewrite lbuilt_snoc, regs_app. destruct IH as (I1 & I2 & I3 & I4 & I5).
  destruct r as [p|n a off|t|r]; cbn [lapply regs flat_map]; rewrite ?app_nil_r; try (cbn; repeat split; assumption).
  unfold loaded in *. rewrite fold_left_app. cbn [fold_left].
  destruct r as [n|n ret args code|k p]; cbn; rewrite ?I1, ?I2, ?I3, ?I4, ?I5; repeat split; reflexivity.
Qed.
Lemma parent_decl_snoc rs r : parent_decl (rs ++ [r]) = match r with LParent p => Some p | _ => parent_decl rs end.
Proof. unfold parent_decl. now rewrite fold_left_app. Qed.
Lemma lbuilt_parent id rs : t_parent (lbuilt id rs) = parent_decl rs.
Proof.
  induction rs as [|r rs IH] using rev_ind; [reflexivity|]. rewrite lbuilt_snoc, parent_decl_snoc.
  destruct r as [p|n a off|t|[n|n ret args code|k p]]; cbn; auto.
Qed.
Lemma parent_decl_In rs p : parent_decl rs = Some p -> In (LParent p) rs.
Proof.
  induction rs as [|r rs IH] using rev_ind; [discriminate|]. rewrite parent_decl_snoc. intro E.
  apply in_or_app. destruct r; try (left; apply IH; exact E). injection E as <-. right. now left.
Qed.
Lemma In_regs r rs : In r (regs rs) <-> In (LReg r) rs.
Proof.
  unfold regs. rewrite in_flat_map. split.
  - intros (x & I & J). destruct x; cbn in J; try contradiction. destruct J as [->|[]]. exact I.
  - intro I. exists (LReg r). split; [exact I|]. now left.
Qed.

Lemma lbuilt_fields id rs n : (forall f, afind n (t_fields (lbuilt id rs)) = Some f -> exists a off, In (LField n a off) rs /\ f = Field n a off []) /\
  (afind n (t_fields (lbuilt id rs)) = None -> forall a off, ~ In (LField n a off) rs).
Proof.
  induction rs as [|r rs [IH1 IH2]] using rev_ind; [split; [discriminate|intros _ ? ? []]|].
  rewrite lbuilt_snoc.
  assert (Keep : (match r with LField _ _ _ => False | _ => True end) -> t_fields (lapply (lbuilt id rs) r) = t_fields (lbuilt id rs)).
  { destruct r as [p|m a off|t|[m|m ret args code|k p]]; cbn; intro; auto. contradiction. }
  destruct r as [p|m a off|t|r]; try (rewrite Keep by exact I; split;
    [intros f E; destruct (IH1 f E) as (a & off & J & ->); exists a, off; split; [apply in_or_app; auto|reflexivity]
    |intros E a off J; apply in_app_or in J as [J|[J|[]]]; [exact (IH2 E a off J)|discriminate]]).
  cbn [lapply set_fields t_fields].
  assert (A : forall l, afind n (l ++ [(m, Field m a off [])]) = match afind n l with Some f => Some f | None => if str_eqb n m then Some (Field m a off []) else None end).
  { induction l as [|[k v] l IHl]; cbn; [reflexivity|]. destruct (str_eqb n k); auto. }
  rewrite A. destruct (afind n (t_fields (lbuilt id rs))) as [f0|] eqn:E0.
  - split; [|discriminate]. intros f E. injection E as <-. destruct (IH1 f0 eq_refl) as (a' & off' & J & ->).
    exists a', off'. split; [apply in_or_app; auto|reflexivity].
  - destruct (str_eqb n m) eqn:En.
    + apply str_eqb_eq in En as ->. split; [|discriminate]. intros f E. injection E as <-. exists a, off. split; [apply in_or_app; right; now left|reflexivity].
    + split; [discriminate|]. intros _ a' off' J. apply in_app_or in J as [J|[J|[]]]; [exact (IH2 eq_refl _ _ J)|].
      injection J as -> _ _. rewrite str_eqb_refl in En. discriminate.
Qed.

(* the fields so far are found under their names *)
Definition fields_ok (rs : list lreg) (t : typerec) : Prop :=
  forall n a off, In (LField n a off) rs -> afind n (t_fields t) = Some (Field n a off []).

Lemma lbuilt_holds id rs : fields_ok rs (lbuilt id rs) -> holds (Decl id rs) (lbuilt id rs).
Proof.
  intro F. destruct (lbuilt_loaded id rs) as (L1 & L2 & L3 & L4 & L5).
  destruct (loaded_spec id (regs rs)) as (I1 & _ & _ & I4 & I5 & I6 & I7).
  constructor; cbn [d_id d_body].
  - congruence.
  - apply lbuilt_parent.
  - congruence.
  - rewrite L3, L4. auto.
  - intros n f. split.
    + intro E. destruct (lbuilt_fields id rs n) as [A _]. auto.
    + intros (a & off & J & ->). auto.
  - intro n. rewrite L5. apply I7.
Qed.

(* ---- one line ---- *)
Lemma reg1_effect H T r H' t : reg1 H T r = Ok H' -> tget H T = Some t -> H' = set_type H T (apply_reg t r).
Proof.
  unfold reg1. intros E Et. rewrite Et in E. destruct r as [n|n ret args code|k p].
  - unfold addTrait in E. destruct (smem n (t_traits t)); [discriminate|]. injection E as <-. reflexivity.
  - unfold addFunction in E. destruct (afind n (t_fields t)); [discriminate|].
    apply bind_Ok in E as (t' & E1 & E). injection E as <-. apply bind_Ok in E1 as (os & E1 & E2).
    apply overloads_add_app in E1 as ->. injection E2 as <-. reflexivity.
  - apply bind_Ok in E as (t' & E1 & E). injection E as <-. unfold setPointer in E1. destruct (isPointer t); [discriminate|].
    unfold addTrait in E1. destruct (smem (lit "pointer") (t_traits t)); [discriminate|]. injection E1 as <-. reflexivity.
Qed.
Lemma lreg1_effect H T r H' t : lreg1 H T r = Ok H' -> tget H T = Some t -> 
  H' = set_type H T (lapply t r) /\ (forall n a off, r = LField n a off -> afind n (t_fields t) = None).
Proof.
  intros E Et. destruct r as [p|n a off|u|r]; cbn [lreg1] in E; rewrite ?Et in E; cbn [lapply].
  - injection E as <-. split; [reflexivity|discriminate].
  - apply bind_Ok in E as (f & E1 & E). apply bind_Ok in E as (t' & E2 & E). injection E as <-.
    unfold makeField in E1. destruct (negb _); [discriminate|]. injection E1 as <-.
    unfold addField in E2. destruct (afind n (t_fns t)); [discriminate|]. destruct (afind n (t_fields t)) eqn:Ef; [discriminate|].
    injection E2 as <-. split; [reflexivity|]. intros m b o X. injection X as <- _ _. exact Ef.
  - injection E as <-. split; [|discriminate]. symmetry. now apply set_type_same.
  - split; [|discriminate]. eapply reg1_effect; eauto.
Qed.
Lemma fields_ok_snoc id rs r : fields_ok rs (lbuilt id rs) ->
  (forall n a off, r = LField n a off -> afind n (t_fields (lbuilt id rs)) = None) -> fields_ok (rs ++ [r]) (lbuilt id (rs ++ [r])).
Proof.
  intros F N n a off J. rewrite lbuilt_snoc. 
  assert (Keep : (match r with LField _ _ _ => False | _ => True end) -> t_fields (lapply (lbuilt id rs) r) = t_fields (lbuilt id rs)).
  { destruct r as [p|m a' off'|t|[m|m ret args code|k p]]; cbn; intro; auto. contradiction. }
  apply in_app_or in J. destruct r as [p|m a' off'|t|r];
    try (rewrite Keep by exact I; destruct J as [J|[J|[]]]; [exact (F n a off J)|discriminate]).
  cbn [lapply set_fields t_fields].
  assert (A : forall (l x : list (str * field)), afind n (l ++ x) = match afind n l with Some f => Some f | None => afind n x end).
  { induction l as [|[k v] l IHl]; intro x; cbn; [reflexivity|]. destruct (str_eqb n k); auto. }
  rewrite A. destruct J as [J|[J|[]]].
  - now rewrite (F n a off J).
  - injection J as -> -> ->. rewrite (N n a off eq_refl). cbn. now rewrite str_eqb_refl.
Qed.

(* ---- what a load adds ---- *)
Section Load.
Context (P : program).

Definition complete (st : lstate) (U : tptr) : Prop :=
  exists d, nth_error (p_decls P) U = Some d /\ tget (l_heap st) U = Some (lbuilt (d_id d) (d_body d)) /\
    holds d (lbuilt (d_id d) (d_body d)) /\ forall V, names P U V -> In V (l_started st).
Definition blank (st : lstate) : Prop := forall U d, nth_error (p_decls P) U = Some d -> ~ In U (l_started st) ->
  tget (l_heap st) U = Some (newType (d_id d)).
Definition shaped (H : heap) : Prop :=
  length (h_types H) = length (p_decls P) /\ h_void H = p_void P /\ h_value H = p_value P.

Record grow (ts : list tptr) (X : tptr -> Prop) (st st' : lstate) : Prop := {
  gr_incl : incl (l_started st) (l_started st');
  gr_same : forall U, In U (l_started st) -> ~ X U -> tget (l_heap st') U = tget (l_heap st) U;
  gr_new : forall U, In U (l_started st') -> ~ In U (l_started st) -> complete st' U /\ exists V, In V ts /\ needs P V U;
  gr_rest : forall U, ~ In U (l_started st') -> tget (l_heap st') U = tget (l_heap st) U;
  gr_shape : shaped (l_heap st) -> shaped (l_heap st') }.

Lemma grow_refl ts X st : grow ts X st st.
Proof. constructor; auto. - apply incl_refl. - intros U A B. contradiction. Qed.

Lemma in_dec_n (U : tptr) l : In U l \/ ~ In U l.
Proof. destruct (in_dec Nat.eq_dec U l); auto. Qed.

Lemma grow_trans ts ts' (X : tptr -> Prop) st st1 st2 : (forall U, X U -> In U (l_started st)) ->
  grow ts X st st1 -> grow ts' X st1 st2 -> grow (ts ++ ts') X st st2.
Proof.
  intros HX G G'. constructor.
  - eapply incl_tran; [apply (gr_incl _ _ _ _ G)|apply (gr_incl _ _ _ _ G')].
  - intros U I N. rewrite (gr_same _ _ _ _ G') by (auto; apply (gr_incl _ _ _ _ G); auto). apply (gr_same _ _ _ _ G); auto.
  - intros U I N. destruct (in_dec_n U (l_started st1)) as [J|J].
    + destruct (gr_new _ _ _ _ G U J N) as [(d & E1 & E2 & E3 & E4) (V & IV & NV)]. split.
      * exists d. split; [exact E1|]. split; [rewrite (gr_same _ _ _ _ G'); auto|]. split; [exact E3|].
        intros V' HV. apply (gr_incl _ _ _ _ G'). auto.
      * exists V. split; [apply in_or_app; auto|exact NV].
    + destruct (gr_new _ _ _ _ G' U I J) as [C (V & IV & NV)]. split; [exact C|]. exists V. split; [apply in_or_app; auto|exact NV].
  - intros U N. rewrite (gr_rest _ _ _ _ G') by auto. apply (gr_rest _ _ _ _ G). intro J. apply N. apply (gr_incl _ _ _ _ G'). exact J.
  - intro S0. apply (gr_shape _ _ _ _ G'), (gr_shape _ _ _ _ G), S0.
Qed.
Lemma grow_weak ts ts' (X Y : tptr -> Prop) st st' : incl ts ts' -> (forall U, X U -> Y U) -> grow ts X st st' -> grow ts' Y st st'.
Proof.
  intros A B [g1 g2 g3 g4 g5]. constructor; auto.
  - intros U I N. destruct (g3 U I N) as [C (V & IV & NV)]. split; auto. exists V. auto.
Qed.

Definition lookup_ok (g : lstate -> tptr -> outcome lstate) : Prop := forall st T st', g st T = Ok st' -> blank st ->
  shaped (l_heap st) ->
  grow [T] (fun _ => False) st st' /\ In T (l_started st') /\ blank st' /\ shaped (l_heap st').

Lemma load_each_ok g : lookup_ok g -> forall ts st st', load_each g st ts = Ok st' -> blank st -> shaped (l_heap st) ->
  grow ts (fun _ => False) st st' /\ incl ts (l_started st') /\ blank st' /\ shaped (l_heap st').
Proof.
  intro G. induction ts as [|t ts IH]; intros st st' E B Sh; cbn in E.
  - injection E as <-. split; [apply grow_refl|]. split; [intros x []|auto].
  - apply bind_Ok in E as (st1 & E1 & E). destruct (G _ _ _ E1 B Sh) as (G1 & I1 & B1 & S1).
    destruct (IH _ _ E B1 S1) as (G2 & I2 & B2 & S2). split.
    + apply (grow_trans [t] ts _ st st1 st'); auto. intros U [].
    + split; [|auto]. intros x [<-|J]; [|auto]. apply (gr_incl _ _ _ _ G2). exact I1.
Qed.

Lemma run_body_ok g T d : lookup_ok g -> nth_error (p_decls P) T = Some d ->
  forall post pre st st', d_body d = pre ++ post -> In T (l_started st) ->
    tget (l_heap st) T = Some (lbuilt (d_id d) pre) -> fields_ok pre (lbuilt (d_id d) pre) ->
    blank st -> shaped (l_heap st) -> run_body g T st post = Ok st' ->
    grow (flat_map asks post) (eq T) st st' /\ tget (l_heap st') T = Some (lbuilt (d_id d) (d_body d)) /\
    holds d (lbuilt (d_id d) (d_body d)) /\ incl (flat_map asks post) (l_started st') /\ blank st' /\ shaped (l_heap st').
Proof.
  intros G Ed. induction post as [|r post IH]; intros pre st st' Eb IT Et F B Sh E; cbn [run_body] in E.
  - injection E as <-. rewrite app_nil_r in Eb. rewrite Eb. split; [apply grow_refl|]. split; [exact Et|].
    split; [|split; [intros x []|auto]]. destruct d as [id body]. cbn in *. subst body. now apply lbuilt_holds.
  - apply bind_Ok in E as (st1 & E1 & E). apply bind_Ok in E as (H' & E2 & E).
    destruct (load_each_ok g G _ _ _ E1 B Sh) as (G1 & I1 & B1 & S1).
    assert (IT1 : In T (l_started st1)) by (apply (gr_incl _ _ _ _ G1); exact IT).
    assert (Et1 : tget (l_heap st1) T = Some (lbuilt (d_id d) pre)) by (rewrite (gr_same _ _ _ _ G1); auto).
    destruct (lreg1_effect _ _ _ _ _ E2 Et1) as [-> N].
    assert (VT : valid (l_heap st1) T) by (eapply tget_valid; eauto).
    set (st2 := LState (set_type (l_heap st1) T (lapply (lbuilt (d_id d) pre) r)) (l_started st1)) in *.
    assert (Et2 : tget (l_heap st2) T = Some (lbuilt (d_id d) (pre ++ [r]))).
    { cbn. rewrite tget_set_eq by auto. now rewrite lbuilt_snoc. }
    assert (B2 : blank st2).
    { intros U u Eu NU. cbn. rewrite tget_set_neq; auto. intros ->. contradiction. }
    assert (S2 : shaped (l_heap st2)).
    { destruct S1 as (s1 & s2 & s3). unfold shaped. cbn. rewrite length_set_nth. auto. }
    assert (G2 : grow [] (eq T) st1 st2).
    { constructor; cbn.
      - apply incl_refl.
      - intros U IU NU. apply tget_set_neq; auto.
      - intros U A C. contradiction.
      - intros U NU. apply tget_set_neq; auto. intros ->. contradiction.
      - intros _. exact S2. }
    destruct (IH (pre ++ [r]) st2 st') as (G3 & R1 & R2 & R3 & R4 & R5); auto.
    + now rewrite <- app_assoc.
    + now apply fields_ok_snoc.
    + split; [|split; [exact R1|split; [exact R2|split; [|split; [exact R4|exact R5]]]]].
      * cbn [flat_map]. apply (grow_trans _ _ _ st st1 st'); [intros U <-; exact IT| |].
        { apply (grow_weak (asks r) _ (fun _ => False) _ _ _ (incl_refl _)); [intros U []|exact G1]. }
        change (flat_map asks post) with ([] ++ flat_map asks post). apply (grow_trans _ _ _ st1 st2 st'); auto. intros U <-. exact IT1.
      * cbn [flat_map]. apply incl_app; [|exact R3]. intros x J. apply (gr_incl _ _ _ _ G3). apply I1. exact J.
Qed.

Lemma names_body T d : nth_error (p_decls P) T = Some d -> forall U, names P T U <-> In U (flat_map asks (d_body d)).
Proof.
  intros E U. unfold names, body_of. rewrite E. rewrite in_flat_map. split; intros (r & I & J); exists r; (split; [exact I|now apply mentions_asks]).
Qed.

Lemma load_ok n : lookup_ok (load_f n P).
Proof.
  induction n as [|n IH]; intros st T st' E B Sh; cbn [load_f] in E; [discriminate|].
  destruct (existsb (Nat.eqb T) (l_started st)) eqn:Ex.
  - injection E as <-. split; [apply grow_refl|]. split; [|auto].
    apply existsb_exists in Ex as (x & I & Q). apply Nat.eqb_eq in Q as ->. exact I.
  - assert (NI : ~ In T (l_started st)).
    { intro I. assert (existsb (Nat.eqb T) (l_started st) = true); [|congruence]. apply existsb_exists. exists T. split; auto. apply Nat.eqb_refl. }
    destruct (nth_error (p_decls P) T) as [d|] eqn:Ed; [|discriminate].
    pose proof (B T d Ed NI) as Bt.
    destruct (run_body_ok (load_f n P) T d IH Ed (d_body d) [] (LState (l_heap st) (T :: l_started st)) st')
      as (G & R1 & R2 & R3 & R4 & R5); auto.
    + now left.
    + intros m a off [].
    + intros U u Eu NU. cbn. apply B; auto. intro J. apply NU. now right.
    + assert (IT : In T (l_started st')) by (apply (gr_incl _ _ _ _ G); now left).
      split; [|auto]. constructor.
      * intros U J. apply (gr_incl _ _ _ _ G). now right.
      * intros U J _. apply (gr_same _ _ _ _ G U (or_intror J)). intros <-. contradiction.
      * intros U J NU. destruct (Nat.eq_dec U T) as [->|NT].
        { split; [|exists T; split; [now left|apply rt1n_refl]]. exists d. split; [exact Ed|]. split; [exact R1|]. split; [exact R2|].
          intros V NV. apply R3. now apply (names_body T d Ed). }
        destruct (gr_new _ _ _ _ G U J) as [C (V & IV & NV)].
        { intros [X|X]; [congruence|contradiction]. }
        split; [exact C|]. exists T. split; [now left|]. eapply Relation_Operators.rt1n_trans; [|exact NV].
        now apply (names_body T d Ed).
      * intros U NU. apply (gr_rest _ _ _ _ G U NU).
      * intros _. exact R5.
Qed.

Lemma linit_blank : blank (linit P).
Proof. intros U d E _. cbn. unfold tget. cbn. now rewrite nth_error_map, E. Qed.
Lemma linit_shaped : shaped (l_heap (linit P)).
Proof. unfold shaped. cbn. now rewrite map_length. Qed.

(* everything started is complete, in a state reached by whole loads *)
Definition closed (st : lstate) : Prop := forall U, In U (l_started st) -> complete st U.

Lemma run_loads_ok ts st : run_loads P ts = Ok st ->
  shaped (l_heap st) /\ blank st /\ closed st /\ (forall U, In U (l_started st) <-> exists t, In t ts /\ needs P t U).
Proof.
  intro E. destruct (load_each_ok (load P) (load_ok _) ts _ _ E linit_blank linit_shaped) as (G & I & B & Sh).
  assert (C : closed st) by (intros U J; apply (gr_new _ _ _ _ G U J); intros []).
  split; [exact Sh|]. split; [exact B|]. split; [exact C|]. intro U. split.
  - intro J. destruct (gr_new _ _ _ _ G U J) as [_ X]; [intros []|exact X].
  - intros (t & It & Nd). assert (J : In t (l_started st)) by auto. clear It. induction Nd as [|x y z N1 N2 IH]; auto.
    apply IH. destruct (C x J) as (d & _ & _ & _ & K). auto.
Qed.

Lemma later_load st T st' : blank st -> shaped (l_heap st) -> load P st T = Ok st' ->
  forall U, In U (l_started st) -> tget (l_heap st') U = tget (l_heap st) U.
Proof. intros B Sh E U J. destruct (load_ok _ st T st' E B Sh) as (G & _). apply (gr_same _ _ _ _ G); auto. Qed.
End Load.
