(* ProofJsonH2.v - reading into a tree of objects is reading into the value it stands for *)
From Coq Require String. Import String.StringSyntax.
From Verif Require Import Base Dec ModelJson ModelJsonW ModelJsonT ProofCodec4 ProofUMap ModelJsonH SpecJsonH ProofJsonH1.
Local Open Scope outcome_scope.

Section Parse.
Context (e : env) (ET : env_built e).

Definition good (t a : nat) (p : list str) (m : store) (v : val) (F : list nat) : Prop :=
  a < length m /\ at_path (cell m a) p /\ sees e m t (hget (cell m a) p) v F /\ NoDup F /\ ~ In a F.
Definition step (t a : nat) (p : list str) (m : store) (F : list nat) (m' : store) (v' : val) (F' : list nat) : Prop :=
  exists x, nth_error m' a = Some (hset (cell m a) p x) /\ sees e m' t x v' F' /\ NoDup F' /\ ~ In a F' /\
    (forall b, In b F' -> In b F \/ length m <= b) /\
    (forall b, b <> a -> ~ In b F -> b < length m -> nth_error m' b = nth_error m b) /\ length m <= length m'.

Lemma step_good t a p m v F m' v' F' : good t a p m v F -> step t a p m F m' v' F' -> good t a p m' v' F'.
Proof.
  intros (G1 & G2 & G3 & G4 & G5) (x & X1 & X2 & X3 & X4 & X5 & X6 & X7). unfold good. rewrite (nth_cell _ _ _ X1), hget_hset.
  repeat split; auto; [lia|]. now apply at_path_hset.
Qed.
Lemma step_refl t a p m v F : good t a p m v F -> step t a p m F m v F.
Proof.
  intros (G1 & G2 & G3 & G4 & G5). exists (hget (cell m a) p). rewrite hset_hget by auto. repeat split; auto. now apply cell_nth.
Qed.
Lemma step_trans t a p m v F m1 v1 F1 m2 v2 F2 : good t a p m v F ->
  step t a p m F m1 v1 F1 -> step t a p m1 F1 m2 v2 F2 -> step t a p m F m2 v2 F2.
Proof.
  intros G (x & X1 & X2 & X3 & X4 & X5 & X6 & X7) (y & Y1 & Y2 & Y3 & Y4 & Y5 & Y6 & Y7). exists y.
  rewrite (nth_cell _ _ _ X1), hset_hset in Y1. repeat split; auto; [| |lia].
  - intros b B. destruct (Y5 b B) as [B1|B1]; [auto|right; lia].
  - intros b B1 B2 B3. rewrite Y6; auto; [|lia]. intro K. destruct (X5 b K); [contradiction|lia].
Qed.
Lemma write_step t a p m v F m1 x v' F' : good t a p m v F ->
  nth_error m1 a = nth_error m a -> sees e m1 t x v' F' -> NoDup F' -> ~ In a F' ->
  (forall b, In b F' -> In b F \/ length m <= b) ->
  (forall b, b <> a -> ~ In b F -> b < length m -> nth_error m1 b = nth_error m b) -> length m <= length m1 ->
  step t a p m F (lset m1 (a, p) x) v' F'.
Proof.
  intros (G1 & G2 & G3 & G4 & G5) E S0 N1 N2 K1 K2 L. exists x. unfold lset. cbn [fst snd]. repeat split; auto.
  - rewrite put_cell_same by lia. unfold cell. now rewrite E.
  - eapply sees_frame; eauto. intros b B. apply put_cell_other. congruence.
  - intros b B1 B2 B3. rewrite put_cell_other; auto.
  - now rewrite put_cell_length.
Qed.

(* ---- inversions ---- *)
Ltac sees_inv := let H := fresh in intros H D; inversion H; subst; rewrite D in *; cbn [scalar] in *; try discriminate;
  try match goal with K : Some _ = Some _, S0 : scalar _ |- _ => injection K as <-; contradiction end;
  try match goal with K : Some _ = Some _ |- _ => injection K; intros; subst end.
Lemma inv_ptr m t h v F sm i : sees e m t h v F -> nth_error e t = Some (DPtr sm i) ->
  (h = HP None /\ v = VPtr None /\ F = []) \/
  exists b h0 v0 F0, h = HP (Some b) /\ v = VPtr (Some v0) /\ F = b :: F0 /\ nth_error m b = Some h0 /\ sees e m i h0 v0 F0.
Proof. sees_inv; [auto|]. right. eauto 10. Qed.
Lemma inv_list m t h v F i : sees e m t h v F -> nth_error e t = Some (DList i) ->
  exists hs l, h = HL hs /\ v = VList l /\ sees_list e m i hs l F.
Proof. sees_inv. eauto. Qed.
Lemma inv_map m t h v F i : sees e m t h v F -> nth_error e t = Some (DMap i) ->
  exists hs l, h = HM hs /\ v = VMap l /\ sees_pairs e m (fun _ t' => t' = i) hs l F.
Proof. sees_inv. eauto. Qed.
Lemma inv_obj m t h v F fs ini : sees e m t h v F -> nth_error e t = Some (DObj fs ini) ->
  exists hs o, h = HO hs /\ v = VObj o /\ same_names fs o /\ sees_pairs e m (member_of fs) hs o F.
Proof. sees_inv. eauto 6. Qed.
Lemma inv_scalar m t h v F d : sees e m t h v F -> nth_error e t = Some d -> scalar d -> h = HV v /\ F = [].
Proof. intros H D Sc. inversion H; subst; rewrite D in *; try (injection H0 as ->; contradiction); auto. Qed.

(* ---- members ---- *)
Lemma pairs_split m T hs l F k v : sees_pairs e m T hs l F -> afind k l = Some v ->
  exists h t F1 Fk F2, afind k hs = Some h /\ T k t /\ F = F1 ++ Fk ++ F2 /\ sees e m t h v Fk /\
    forall m' x v' Fk', sees e m' t x v' Fk' -> (forall b, In b (F1 ++ F2) -> nth_error m' b = nth_error m b) ->
      sees_pairs e m' T (aset k x hs) (aset k v' l) (F1 ++ Fk' ++ F2).
Proof.
  induction 1 as [|T j t h w F hs l F' Tk S0 S1 IH]; cbn; [discriminate|]. destruct (str_eqb k j) eqn:E.
  - intros [= ->]. apply str_eqb_sound in E. subst j. exists h, t, [], F, F'. cbn. repeat split; auto. intros m' x v' Fk' S2 Fr.
    econstructor; eauto. eapply sees_pairs_frame; eauto.
  - intro A. destruct (IH A) as (h' & t' & F1 & Fk & F2 & A1 & A2 & A3 & A4 & A5). exists h', t', (F ++ F1), Fk, F2. subst F'.
    repeat split; auto; [now rewrite <- app_assoc|]. intros m' x v' Fk' S2 Fr. rewrite <- app_assoc. econstructor; eauto.
    + eapply sees_frame; eauto. intros b B. apply Fr. rewrite <- app_assoc. apply in_or_app. auto.
    + apply A5; auto. intros b B. apply Fr. rewrite <- app_assoc. apply in_or_app. auto.
Qed.
Lemma pairs_set m T hs l F k t h v G : sees_pairs e m T hs l F -> T k t -> sees e m t h v G -> NoDup (F ++ G) ->
  exists F', sees_pairs e m T (hmap_set k h hs) (map_set k v l) F' /\ NoDup F' /\ (forall b, In b F' -> In b (F ++ G)).
Proof.
  intros S0 Tk Sx. induction S0 as [|T j t' h' v' F hs l F' Tj S0 S1 IH]; intro N1; cbn [hmap_set map_set].
  - exists (G ++ []). repeat split; [econstructor; eauto; constructor|now rewrite app_nil_r|intros b; now rewrite app_nil_r].
  - rewrite <- app_assoc in N1. apply NoDup_app_inv in N1. destruct N1 as (N1 & N2 & N3). destruct (str_eqb k j) eqn:E; [|destruct (str_ltb k j)].
    + exists (G ++ F'). apply NoDup_app_inv in N2. destruct N2 as (N2 & N4 & N5). repeat split.
      * econstructor; eauto.
      * apply NoDup_app; auto. eauto.
      * intros b B. rewrite <- app_assoc. apply in_or_app. right. apply in_app_or in B. apply in_or_app. tauto.
    + exists (G ++ F ++ F'). apply NoDup_app_inv in N2. destruct N2 as (N2 & N4 & N5). repeat split.
      * econstructor; eauto. econstructor; eauto.
      * apply NoDup_app; auto; [apply NoDup_app; auto|].
        -- intros x X1 X2. apply (N3 x X1). apply in_or_app. auto.
        -- intros x X1 X2. apply in_app_or in X2. destruct X2 as [X2|X2]; [apply (N3 x X2); apply in_or_app; auto|eauto].
      * intros b B. rewrite <- app_assoc. apply in_app_or in B. destruct B as [B|B]; [apply in_or_app; right; apply in_or_app; auto|].
        apply in_app_or in B. apply in_or_app. destruct B; auto. right. apply in_or_app. auto.
    + destruct (IH Tk N2) as (F2 & I1 & I2 & I3). exists (F ++ F2). repeat split.
      * econstructor; eauto.
      * apply NoDup_app; auto. intros x X1 X2. apply I3 in X2. eauto.
      * intros b B. rewrite <- app_assoc. apply in_app_or in B. apply in_or_app. destruct B; auto.
Qed.
Lemma list_snoc m i hs l F h v G : sees_list e m i hs l F -> sees e m i h v G -> sees_list e m i (hs ++ [h]) (l ++ [v]) (F ++ G).
Proof.
  induction 1 as [|i h' v' F hs l F' S0 S1 IH]; intro Sx; cbn.
  - rewrite <- (app_nil_r G). constructor; auto. constructor.
  - rewrite <- app_assoc. constructor; auto.
Qed.

(* ---- void Values ---- *)
Lemma parse_dyn_void f v r : orel (fun x y => fst y = (match peek_tok r with Ok (tk, _) => if assigns tk then fst x else v | _ => v end) /\ snd y = snd x)
  (parse_dyn f VVoid r) (parse_dyn f v r).
Proof.
  destruct f as [|f]; cbn [parse_dyn]; [exact Logic.I|]. destruct (peek_tok r) as [[tk r1]| | | |]; cbn [bind]; try exact Logic.I.
  destruct tk; cbn [assigns]; try (apply orel_same; intros [? ?] _); try (apply orel_same; intros ? _); cbn; auto.
Qed.
Lemma parse_dyn_peek f v r x : parse_dyn f v r = Ok x -> exists tk r1, peek_tok r = Ok (tk, r1).
Proof. destruct f as [|f]; cbn [parse_dyn]; [discriminate|]. destruct (peek_tok r) as [[tk r1]| | | |]; cbn [bind]; try discriminate. eauto. Qed.

Definition R3 (t a : nat) (p : list str) (m : store) (F : list nat) (x : store * bool * reader) (y : val * bool * reader) : Prop :=
  snd x = snd y /\ snd (fst x) = snd (fst y) /\ exists F', step t a p m F (fst (fst x)) (fst (fst y)) F'.
Definition refines (f : nat) : Prop :=
  forall t a p m r v F, good t a p m v F -> orel (R3 t a p m F) (parse_h f e t (a, p) m r) (parse_t f e t v r).

(* reading into a new object *)
Definition Rnew (i b : nat) (m : store) (x : store * bool * reader) (y : val * bool * reader) : Prop :=
  snd x = snd y /\ snd (fst x) = snd (fst y) /\ exists h F', nth_error (fst (fst x)) b = Some h /\
    sees e (fst (fst x)) i h (fst (fst y)) F' /\ NoDup F' /\ ~ In b F' /\ (forall c, In c F' -> length m <= c) /\
    (forall c, c < length m -> nth_error (fst (fst x)) c = nth_error m c).
Lemma refines_new f i m r : refines f -> let (b, m1) := new_object e i m in
  length m <= b /\ orel (Rnew i b m) (parse_h f e i (b, []) m1 r) (parse_t f e i (dval e i) r).
Proof.
  intro IH. destruct (nth_error e i) as [d|] eqn:D.
  - destruct (new_object_sees e i m (proj1 (ET _ _ D))) as (n & F & h & E & S0 & N1 & L). rewrite E. split; [rewrite app_length; lia|].
    assert (Lm : nth_error (m ++ n ++ [h]) (length (m ++ n)) = Some h) by (rewrite app_assoc; apply nth_snoc).
    assert (G : good i (length (m ++ n)) [] (m ++ n ++ [h]) (dval e i) F).
    { unfold good. cbn [hget at_path]. rewrite (nth_cell _ _ _ Lm). repeat split; auto; [now apply nth_some_lt in Lm|]. intro K. apply L in K. lia. }
    specialize (IH i (length (m ++ n)) [] _ r _ _ G). destruct (parse_h _ _ _ _ _ _) as [[[m2 mv] r2]| | | |], (parse_t _ _ _ _ _) as [[[v2 mv'] r2']| | | |]; try contradiction IH; auto.
    destruct IH as (I1 & I2 & F' & x & X1 & X2 & X3 & X4 & X5 & X6 & X7). cbn [fst snd hset orel] in *. unfold Rnew. cbn [fst snd]. repeat split; auto.
    exists x, F'. repeat split; auto.
    + intros c C. destruct (X5 c C) as [K|K]; [apply L in K; lia|]. rewrite app_length in K. lia.
    + intros c C. rewrite X6.
      * now apply nth_app.
      * rewrite app_length. lia.
      * intro K. apply L in K. lia.
      * rewrite app_length. lia.
  - destruct (new_object e i m) as [b m1] eqn:E. unfold new_object, dval in E. rewrite D in E. cbn in E. injection E as <- <-. split; [lia|].
    destruct f as [|f]; cbn [parse_h parse_t]; [exact Logic.I|]. rewrite D. exact Logic.I.
Qed.

Lemma alias_in fs a fd : find_alias fs a = Some fd -> In fd fs.
Proof. intro H. unfold find_alias in H. apply find_some in H. destruct H as [H _]. unfold obj_fields in H. now apply filter_In in H. Qed.
Lemma key_inj fs f g : NoDup (map f_key fs) -> In f fs -> In g fs -> f_key f = f_key g -> f = g.
Proof.
  induction fs as [|x fs IH]; [contradiction|]. cbn. inversion_clear 1. intros [->|I1] [->|I2] E; auto; exfalso; apply H0; [rewrite E|rewrite <- E]; now apply in_map.
Qed.
Lemma same_names_set fs k (x : val) o : same_names fs o -> In k (map f_key fs) -> same_names fs (aset k x o).
Proof.
  intros H K j. rewrite <- (H j). split; intro J.
  - apply In_akeys_afind in J. destruct J as [y J]. destruct (str_eqb_spec j k) as [->|Ne]; [now apply H|]. rewrite afind_aset_other in J by auto. eapply afind_Some_key; eauto.
  - destruct (str_eqb_spec j k) as [->|Ne]; [eapply afind_Some_key; apply afind_aset_same|]. apply In_akeys_afind in J. destruct J as [y J].
    apply (afind_Some_key _ _ y). now rewrite afind_aset_other.
Qed.

Lemma refines_all f : refines f.
Proof.
  induction f as [|f IH]; intros t a p m r v F G; [exact Logic.I|]. cbn [parse_h parse_t].
  destruct (nth_error e t) as [d|] eqn:D; [|exact Logic.I].
  assert (Wr : forall x v', sees e m t x v' [] -> step t a p m F (lset m (a, p) x) v' []).
  { intros x v' Sx. eapply write_step; eauto; [constructor|intros b []]. }
  destruct d as [|is64|dbl| |sm i|i|i| |fs ini].
  - apply orel_same. intros [b r1] _. repeat split. exists []. apply Wr. eapply se_scalar; eauto. exact Logic.I.
  - apply orel_same. intros [b r1] _. destruct is64; [|exact Logic.I]. repeat split. exists []. apply Wr. eapply se_scalar; eauto. exact Logic.I.
  - apply orel_same. intros [b r1] _. destruct dbl; [|exact Logic.I]. repeat split. exists []. apply Wr. eapply se_scalar; eauto. exact Logic.I.
  - apply orel_same. intros [b r1] _. repeat split. exists []. apply Wr. eapply se_scalar; eauto. exact Logic.I.
  - apply orel_same. intros [tk r1] _. destruct (same_type tk TNull).
    + apply orel_same. intros [tk2 r2] _. repeat split. destruct sm; cbn [fst snd].
      * exists []. apply Wr. eapply se_null; eauto.
      * exists F. now apply step_refl.
    + pose proof G as (G1 & G2 & G3 & G4 & G5). unfold lget. cbn [fst snd].
      destruct (inv_ptr _ _ _ _ _ _ _ G3 D) as [(Eh & -> & ->)|(b & h0 & v0 & F0 & Eh & -> & -> & Hb & Sp)]; rewrite Eh.
      * (* null: a new object *)
        pose proof (refines_new f i m r1 IH) as Hn. destruct (new_object e i m) as [b m1]. destruct Hn as [Lb Hn].
        eapply (orel_bind (Rnew i b m)); [exact Hn|]. intros [[m2 mv] r2] [[v2 mv'] r2'] (E1 & E2 & h & F' & X1 & X2 & X3 & X4 & X5 & X6). cbn [fst snd] in *.
        repeat split; cbn [fst snd]; auto. exists (b :: F'). eapply write_step; eauto.
        -- eapply se_ptr; eauto.
        -- constructor; auto.
        -- intros [K|K]; [lia|apply X5 in K; lia].
        -- intros c [<-|C]; auto.
        -- apply nth_some_lt in X1. lia.
      * (* the pointee *)
        inversion G4 as [|b' F0' Nb N0]; subst. assert (Gb : good i b [] m v0 F0).
        { unfold good. cbn [hget at_path]. rewrite (nth_cell _ _ _ Hb). repeat split; auto. now apply nth_some_lt in Hb. }
        eapply (orel_bind (R3 i b [] m F0)); [now apply IH|]. intros [[m2 mv] r2] [[v2 mv'] r2'] (E1 & E2 & F' & x & X1 & X2 & X3 & X4 & X5 & X6 & X7). cbn [fst snd hset] in *.
        repeat split; cbn [fst snd]; auto. exists (b :: F'). exists (HP (Some b)). rewrite (X6 a); [|intro K; apply G5; left; auto|intro K; apply G5; right; auto|auto].
        repeat split.
        -- rewrite <- Eh, hset_hget by auto. now apply cell_nth.
        -- eapply se_ptr; eauto.
        -- constructor; auto.
        -- intros [K|K]; [apply G5; left; auto|]. destruct (X5 a K) as [K'|K']; [apply G5; right; auto|lia].
        -- intros c [<-|C]; [left; now left|]. destruct (X5 c C); [left; now right|auto].
        -- intros c C1 C2 C3. apply X6; auto; intro K; apply C2; [left; auto|right; auto].
        -- auto.
  - (* maps *)
    set (hstep := fun k m r => _). set (vstep := fun k l r => _).
    eapply (orel_bind (steps (fun m' l => exists F', step t a p m F m' (VMap l) F'))).
    + apply parse_object_sim.
      * intros k m1 l r1 [F1 St]. pose proof (step_good _ _ _ _ _ _ _ _ _ G St) as G'. subst hstep vstep. cbn beta.
        pose proof (refines_new f i m1 r1 IH) as Hn. destruct (new_object e i m1) as [b m1']. destruct Hn as [Lb Hn].
        eapply (orel_bind (Rnew i b m1)); [exact Hn|]. intros [[m2 mv] r2] [[v2 mv'] r2'] (E1 & E2 & h & F' & X1 & X2 & X3 & X4 & X5 & X6). cbn [fst snd] in *. subst r2' mv'.
        pose proof G' as (H1 & H2 & H3 & H4 & H5). cbn zeta.
        assert (Eb : forall c, c < length m1 -> nth_error (put_cell m2 b (HV VVoid)) c = nth_error m1 c).
        { intros c C. rewrite put_cell_other by lia. auto. }
        assert (Lm : length m1 <= length (put_cell m2 b (HV VVoid))).
        { rewrite put_cell_length. apply nth_some_lt in X1. lia. }
        destruct (rok r2).
        -- destruct mv; [exact Logic.I|]. split; cbn [fst snd]; auto. destruct (inv_map _ _ _ _ _ _ H3 D) as (hs & l' & Eh & El & Sp). injection El as <-.
           unfold lget at 1. cbn [fst snd]. replace (cell (put_cell m2 b (HV VVoid)) a) with (cell m1 a) by (unfold cell; now rewrite Eb).
           rewrite Eh. cbn [hpairs].
           rewrite (nth_cell _ _ _ X1).
           assert (S2 : sees e (put_cell m2 b (HV VVoid)) i h v2 F').
           { eapply sees_frame; eauto. intros c C. apply put_cell_other. congruence. }
           destruct (pairs_set (put_cell m2 b (HV VVoid)) (fun _ t' => t' = i) hs l F1 k i h v2 F') as (F2 & P1 & P2 & P3); auto.
           { eapply sees_pairs_frame; eauto. intros c C. apply Eb. eapply sees_in; eauto. }
           { apply NoDup_app; auto. intros c C1 C2. apply X5 in C2. apply (sees_in _ _ _ _ _ _ _ H3) in C1. lia. }
           exists F2. eapply step_trans; eauto. eapply write_step; eauto.
           ++ eapply se_map; eauto.
           ++ intro K. apply P3 in K. apply in_app_or in K. destruct K as [K|K]; [auto|apply X5 in K; lia].
           ++ intros c C. apply P3 in C. apply in_app_or in C. destruct C; auto.
        -- split; cbn [fst snd]; auto. exists F1. eapply step_trans; eauto. exists (hget (cell m1 a) p). rewrite hset_hget by auto. repeat split; auto.
           ++ rewrite Eb by auto. now apply cell_nth.
           ++ eapply sees_frame; eauto. intros c C. apply Eb. eapply sees_in; eauto.
      * exists F. pose proof G as (H1 & H2 & H3 & H4 & H5). destruct (inv_map _ _ _ _ _ _ H3 D) as (hs & l' & Eh & -> & Sp).
        cbn [map_of]. now apply step_refl.
    + intros [m' r1] [l r1'] [[F' St] E]. cbn [fst snd] in *. subst r1'. repeat split; cbn [fst snd]; auto. eauto.
  - (* lists *)
    set (hstep := fun k m r => _). set (vstep := fun k l r => _).
    eapply (orel_bind (steps (fun m' l => exists F', step t a p m F m' (VList l) F'))).
    + apply parse_array_sim.
      * intros k m1 l r1 [F1 St]. pose proof (step_good _ _ _ _ _ _ _ _ _ G St) as G'. subst hstep vstep. cbn beta.
        pose proof (refines_new f i m1 r1 IH) as Hn. destruct (new_object e i m1) as [b m1']. destruct Hn as [Lb Hn].
        eapply (orel_bind (Rnew i b m1)); [exact Hn|]. intros [[m2 mv] r2] [[v2 mv'] r2'] (E1 & E2 & h & F' & X1 & X2 & X3 & X4 & X5 & X6). cbn [fst snd] in *. subst r2' mv'.
        pose proof G' as (H1 & H2 & H3 & H4 & H5). cbn zeta.
        assert (Eb : forall c, c < length m1 -> nth_error (put_cell m2 b (HV VVoid)) c = nth_error m1 c).
        { intros c C. rewrite put_cell_other by lia. auto. }
        assert (Lm : length m1 <= length (put_cell m2 b (HV VVoid))).
        { rewrite put_cell_length. apply nth_some_lt in X1. lia. }
        destruct (rok r2).
        -- destruct mv; [exact Logic.I|]. split; cbn [fst snd]; auto. destruct (inv_list _ _ _ _ _ _ H3 D) as (hs & l' & Eh & El & Sp). injection El as <-.
           unfold lget at 1. cbn [fst snd]. replace (cell (put_cell m2 b (HV VVoid)) a) with (cell m1 a) by (unfold cell; now rewrite Eb).
           rewrite Eh. cbn [hlist].
           rewrite (nth_cell _ _ _ X1).
           assert (S2 : sees e (put_cell m2 b (HV VVoid)) i h v2 F').
           { eapply sees_frame; eauto. intros c C. apply put_cell_other. congruence. }
           exists (F1 ++ F'). eapply step_trans; eauto. eapply write_step; eauto.
           ++ eapply se_list; eauto. apply list_snoc; auto. eapply sees_list_frame; eauto. intros c C. apply Eb. eapply sees_in; eauto.
           ++ apply NoDup_app; auto. intros c C1 C2. apply X5 in C2. apply (sees_in _ _ _ _ _ _ _ H3) in C1. lia.
           ++ intro K. apply in_app_or in K. destruct K as [K|K]; [auto|apply X5 in K; lia].
           ++ intros c C. apply in_app_or in C. destruct C; auto.
        -- split; cbn [fst snd]; auto. exists F1. eapply step_trans; eauto. exists (hget (cell m1 a) p). rewrite hset_hget by auto. repeat split; auto.
           ++ rewrite Eb by auto. now apply cell_nth.
           ++ eapply sees_frame; eauto. intros c C. apply Eb. eapply sees_in; eauto.
      * exists F. pose proof G as (H1 & H2 & H3 & H4 & H5). destruct (inv_list _ _ _ _ _ _ H3 D) as (hs & l' & Eh & -> & Sp).
        cbn [list_of]. now apply step_refl.
    + intros [m' r1] [l r1'] [[F' St] E]. cbn [fst snd] in *. subst r1'. repeat split; cbn [fst snd]; auto. eauto.
  - (* a void Value *)
    pose proof (parse_dyn_void f v r) as Hd. destruct (parse_dyn f VVoid r) as [[x r1]| | | |] eqn:E, (parse_dyn f v r) as [[y r1']| | | |]; try contradiction Hd; try exact Logic.I.
    destruct (parse_dyn_peek _ _ _ _ E) as (tk & rp & Ep). cbn [bind]. rewrite Ep in *. cbn [bind]. destruct Hd as [E1 E2]. cbn [fst snd] in *. subst r1' y.
    repeat split; cbn [fst snd]; auto. destruct (assigns tk); [|exists F; now apply step_refl]. exists []. apply Wr. eapply se_scalar; eauto. exact Logic.I.
  - (* classes *)
    set (hstep := fun k m r => _). set (vstep := fun k l r => _).
    pose proof (proj2 (ET _ _ D)) as ND. cbn beta iota in ND.
    eapply (orel_bind (steps (fun m' l => exists F', step t a p m F m' (VObj l) F'))).
    + apply parse_object_sim.
      * intros k m1 l r1 [F1 St]. pose proof (step_good _ _ _ _ _ _ _ _ _ G St) as G'. subst hstep vstep. cbn beta.
        destruct (find_alias fs k) as [fd|] eqn:Fa.
        2: { apply orel_same. intros r2 _. split; cbn [fst snd]; auto. eauto. }
        apply alias_in in Fa. pose proof G' as (H1 & H2 & H3 & H4 & H5).
        destruct (inv_obj _ _ _ _ _ _ _ H3 D) as (hs & l' & Eh & El & H6 & H8). injection El as <-.
        assert (Kf : In (f_key fd) (map f_key fs)) by now apply in_map.
        pose proof (proj2 (H6 (f_key fd)) Kf) as Kl. apply In_akeys_afind in Kl. destruct Kl as [y Ky].
        destruct (pairs_split _ _ _ _ _ _ _ H8 Ky) as (h & t' & Fa1 & Fk & Fa2 & A1 & (g & Ig & Eg1 & Eg2) & A3 & A4 & A5). subst t'.
        replace g with fd in * by (symmetry; eapply key_inj; eauto). clear Ig Eg1 g. subst F1. unfold field_of. rewrite Ky.
        apply NoDup_app_inv in H4. destruct H4 as (N1 & N2 & N3). apply NoDup_app_inv in N2. destruct N2 as (N2 & N4 & N5).
        assert (Gk : good (f_type fd) a (p ++ [f_key fd]) m1 y Fk).
        { repeat split; auto.
          - apply at_path_snoc; auto. exists hs, h. auto.
          - rewrite hget_snoc. rewrite Eh. cbn [hget members]. now rewrite A1.
          - intro K. apply H5. apply in_or_app. right. apply in_or_app. auto. }
        cbn [fst snd]. eapply (orel_bind (R3 (f_type fd) a (p ++ [f_key fd]) m1 Fk)); [now apply IH|].
        intros [[m2 mv] r2] [[v2 mv'] r2'] (E1 & E2 & F' & x & X1 & X2 & X3 & X4 & X5 & X6 & X7). cbn [fst snd] in *. split; cbn [fst snd]; auto.
        exists (Fa1 ++ F' ++ Fa2). eapply step_trans; eauto. exists (HO (aset (f_key fd) x hs)).
        rewrite hset_snoc in X1 by auto. rewrite Eh in X1. cbn [hset members] in X1.
        assert (In1 : forall c, In c Fa1 \/ In c Fa2 -> nth_error m2 c = nth_error m1 c /\ c < length m1 /\ c <> a /\ ~ In c Fk).
        { intros c C. assert (C1 : c < length m1).
          { apply (sees_in _ _ _ _ _ _ c H3). apply in_or_app. destruct C; auto. right. apply in_or_app; auto. }
          assert (C2 : c <> a). { intros ->. apply H5. apply in_or_app. destruct C; auto. right. apply in_or_app; auto. }
          assert (C3 : ~ In c Fk). { intro K. destruct C as [C|C]; [apply (N3 c C); apply in_or_app; auto|apply (N5 c K C)]. }
          auto. }
        repeat split; auto.
        -- eapply se_obj; eauto; [now apply same_names_set|]. apply A5; auto. intros c C. apply in_app_or in C. now apply In1.
        -- apply NoDup_app; auto; [apply NoDup_app; auto|].
           ++ intros c C1 C2. destruct (X5 c C1) as [K|K]; [eauto|]. destruct (In1 c (or_intror C2)) as (_ & K1 & _). lia.
           ++ intros c C1 C2. apply in_app_or in C2. destruct C2 as [C2|C2].
              ** destruct (X5 c C2) as [K|K]; [apply (N3 c C1); apply in_or_app; auto|]. destruct (In1 c (or_introl C1)) as (_ & K1 & _). lia.
              ** apply (N3 c C1). apply in_or_app; auto.
        -- intro K. apply in_app_or in K. destruct K as [K|K]; [now destruct (In1 a (or_introl K)) as (_ & _ & K1 & _)|].
           apply in_app_or in K. destruct K as [K|K]; [auto|]. now destruct (In1 a (or_intror K)) as (_ & _ & K1 & _).
        -- intros c C. apply in_app_or in C. destruct C as [C|C]; [left; apply in_or_app; auto|].
           apply in_app_or in C. destruct C as [C|C]; [|left; apply in_or_app; right; apply in_or_app; auto].
           destruct (X5 c C); [left; apply in_or_app; right; apply in_or_app; auto|auto].
        -- intros c C1 C2 C3. apply X6; auto. intro K. apply C2. apply in_or_app. right. apply in_or_app. auto.
      * exists F. pose proof G as (H1 & H2 & H3 & H4 & H5). destruct (inv_obj _ _ _ _ _ _ _ H3 D) as (hs & l' & Eh & -> & Sn & Sp).
        cbn [obj_of]. now apply step_refl.
    + intros [m' r1] [l r1'] [[F' St] E]. cbn [fst snd] in *. subst r1'. repeat split; cbn [fst snd]; auto. eauto.
Qed.
End Parse.
