(* ProofJsonA7.v - a text is read in one way only: the accepted texts determine the
   document and what follows it *)
From Coq Require String. Import String.StringSyntax.
From Verif Require Import Base Dec ModelJson ModelJsonW ModelJsonT SpecJson SpecJsonT SpecJsonA ProofJson1 ProofJson2 ProofJson3 ProofJson4 ProofJson5 ProofJson8 ProofJson9 ProofJsonA1 ProofJsonA2 ProofJsonA3.
Local Open Scope N_scope.

Definition starter (c : N) : Prop := ~ space_char c /\ c <> 47.
Lemma num_starter c : c = 45 \/ digit_char c -> starter c.
Proof. unfold starter, space_char, digit_char. lia. Qed.
Lemma accept_sloppy d t x : tok_accept d t x -> is_num t -> sloppy_number x.
Proof.
  intros [t' y H|y H _] N; [|exact H].
  destruct H; try contradiction.
  - destruct (int_text_inv _ _ H) as (c & ds & -> & Hc & Hd). exists c, ds, [], []. rewrite !app_nil_r. repeat split; auto; now left.
  - destruct (float_text_inv _ H) as (c & ds & fr & ex & -> & Hc & Hd & Hfr & Hex & Hne). exists c, ds, fr, ex.
    repeat split; auto.
    + destruct Hfr as [->|(d1 & -> & _ & D)]; [now left|right; eauto].
    + destruct Hex as [->|(e & sg & d1 & A & B & _ & D & ->)]; [now left|right]. exists e, sg, d1. auto.
Qed.
Lemma accept_text d t x : tok_accept d t x -> ~ is_num t -> tok_text d t x.
Proof. intros [t' y H|y H _] N; [exact H|]. exfalso. now apply N. Qed.
Lemma accept_first d t x : tok_accept d t x -> exists c x', x = c :: x' /\ starter c /\ (is_num t <-> (c = 45 \/ digit_char c)).
Proof.
  intro H. destruct (match t as t0 return {is_num t0} + {~ is_num t0} with AInt _ | AFloat _ => left I | _ => right (fun f => f) end) as [N|N].
  - destruct (accept_sloppy _ _ _ H N) as (c & ds & fr & ex & Hc & _ & _ & _ & ->). exists c, (ds ++ fr ++ ex).
    split; [reflexivity|]. split; [now apply num_starter|]. tauto.
  - pose proof (accept_text _ _ _ H N) as K.
    destruct K; try (exfalso; now apply N);
    match goal with |- exists c x', ?l = c :: x' /\ _ => let v := eval hnf in l in
      match v with ?a :: ?b => let n := eval vm_compute in a in exists n, b end end;
    (split; [reflexivity|]; split; [unfold starter, space_char; lia|]; split; [intros []|unfold digit_char; lia]).
Qed.

Lemma blank_unique d w : blank d w -> forall w' c r c' r', blank d w' -> starter c -> starter c' -> w ++ c :: r = w' ++ c' :: r' -> w = w'.
Proof.
  assert (spl : forall (b b' u u' : str), ~ In 10 b -> ~ In 10 b' -> b ++ 10 :: u = b' ++ 10 :: u' -> b = b' /\ u = u').
  { induction b as [|a b IHb]; intros [|a' b'] u u' N N' E; cbn [app] in E.
    - injection E as <-. auto.
    - injection E as <- _. exfalso. apply N'. now left.
    - injection E as -> _. exfalso. apply N. now left.
    - injection E as <- E. destruct (IHb b' u u') as (-> & ->); auto; intro X; [apply N|apply N']; now right. }
  induction 1 as [|a w Ha _ IH|b w Dc Nb _ IH]; intros w' c r c' r' Hw (S1 & S2) (S1' & S2') E;
    destruct Hw as [|a' w' Ha' Hw'|b' w' Dc' Nb' Hw']; cbn [app] in E.
  - reflexivity.
  - injection E as -> _. contradiction.
  - injection E as -> _. congruence.
  - injection E as <- _. contradiction.
  - injection E as <- E. f_equal. eapply IH; eauto; now split.
  - injection E as -> _. unfold space_char in Ha. lia.
  - injection E as <- _. congruence.
  - injection E as <- _. unfold space_char in Ha'. lia.
  - injection E as E. rewrite <- !app_assoc in E. cbn [app] in E. apply spl in E as (-> & E); auto.
    do 2 f_equal. f_equal. f_equal. eapply IH; eauto; now split.
Qed.

Lemma int_text_unique z z' x : int_text z x -> int_text z' x -> z = z'.
Proof.
  intros H H'. inversion H as [s N D|s N D]; subst; inversion H' as [s' N' D' E|s' N' D' E]; subst; auto.
  - inversion D as [|? ? X _]; subst. unfold digit_char in X. lia.
  - inversion D' as [|? ? X _]; subst. unfold digit_char in X. lia.
Qed.
Lemma int_not_float d z x : int_text z x -> ~ tok_accept d (AFloat x) x.
Proof.
  intros H K. inversion K as [t y T|y Hs Hn]; subst; [|eapply Hn; eauto].
  inversion T as [| | | | | | | |y F| | |]; subst. destruct (float_text_inv _ F) as (c & ds & fr & ex & -> & Hc & Hd & Hfr & Hex & Hne).
  revert H. apply not_int_frac; auto.
  - destruct Hfr as [->|(d1 & -> & _ & D)]; [now left|right; eauto].
  - destruct Hex as [->|(e & sg & d1 & A & B & _ & D & ->)]; [now left|right]. exists e, sg, d1. auto.
Qed.
Lemma accept_num_inv d t x : tok_accept d t x -> is_num t -> (exists z, t = AInt z /\ int_text z x) \/ (t = AFloat x).
Proof. intros [t' y H|y H _] N; [|now right]. destruct H; try contradiction; eauto. Qed.

Lemma tok_unique d t x s t' x' s' : tok_accept d t x -> tok_accept d t' x' -> (is_num t -> longest x s) -> (is_num t' -> longest x' s') ->
  x ++ s = x' ++ s' -> t = t' /\ x = x' /\ s = s'.
Proof.
  intros H H' L L' E.
  destruct (accept_first _ _ _ H) as (c & y & Ex & _ & Nc). destruct (accept_first _ _ _ H') as (c' & y' & Ex' & _ & Nc').
  assert (c = c') as <- by (rewrite Ex, Ex' in E; cbn [app] in E; congruence).
  destruct (match t as t0 return {is_num t0} + {~ is_num t0} with AInt _ | AFloat _ => left I | _ => right (fun f => f) end) as [N|N].
  - assert (N' : is_num t') by tauto. specialize (L N). specialize (L' N').
    assert (X : x = x' /\ s = s').
    { pose proof E as E0. apply app_eq_app in E as (l & [(-> & E)|(-> & E)]).
      - assert (l = []) as ->; [|rewrite app_nil_r in *; auto]. eapply L'; [exact E|]. eapply accept_sloppy; eauto.
      - assert (l = []) as ->; [|rewrite app_nil_r in *; auto]. eapply L; [exact E|]. eapply accept_sloppy; eauto. }
    destruct X as (<- & <-). split; [|auto].
    destruct (accept_num_inv _ _ _ H N) as [(z & -> & Hz)| ->], (accept_num_inv _ _ _ H' N') as [(z' & -> & Hz')| ->]; auto.
    + now rewrite (int_text_unique _ _ _ Hz Hz').
    + exfalso. eapply int_not_float; eauto.
    + exfalso. eapply int_not_float; eauto.
  - assert (N' : ~ is_num t') by tauto.
    pose (o := mkOpts (d_comments d) (d_unescape d) (d_validate d)).
    assert (Ed : dia o = d) by (destruct d; reflexivity).
    pose (r := mkR (x ++ s) false false None 1 1 [] TNone o).
    assert (H1 : R o ([] ++ x ++ s) [] TNone r) by (exists 1, 1; reflexivity).
    assert (H2 : R o ([] ++ x' ++ s') [] TNone r) by (cbn [app]; rewrite <- E; exists 1, 1; reflexivity).
    destruct (lex_ok o [] t x s [] r (bl_nil _) ltac:(rewrite Ed; now apply accept_text) ltac:(contradiction) H1) as (r1 & b1 & E1 & R1 & P1).
    destruct (lex_ok o [] t' x' s' [] r (bl_nil _) ltac:(rewrite Ed; now apply accept_text) ltac:(contradiction) H2) as (r2 & b2 & E2 & R2 & P2).
    rewrite E1 in E2. assert (Et : tok_of t = tok_of t') by congruence. assert (r1 = r2) as <- by congruence.
    assert (s = s') as <- by (rewrite <- (R_in _ _ _ _ _ R1), <- (R_in _ _ _ _ _ R2); reflexivity).
    assert (b1 = b2) as <- by (destruct R1 as (p & l & ->); destruct R2 as (p' & l' & R2); congruence).
    apply app_inv_tail in E. split; [|auto].
    destruct t, t'; cbn in Et, N, N', P1, P2; try discriminate Et; try reflexivity; try (exfalso; tauto); congruence.
Qed.

Lemma accepts_det d s ts rest : accepts d s ts rest -> forall ts' rest', accepts d s ts' rest' ->
  (exists e, ts' = ts ++ e /\ accepts d rest e rest') \/ (exists e, ts = ts' ++ e /\ accepts d rest' e rest).
Proof.
  induction 1 as [s|w t x s ts rest Bw Ta Lg Hr IH]; intros ts' rest' K; [left; now exists ts'|].
  inversion K as [s0|w' t' x' s' ts1 rest1 Bw' Ta' Lg' Hr']; subst.
  - right. exists (t :: ts). split; [reflexivity|]. econstructor; eauto.
  - destruct (accept_first _ _ _ Ta) as (c & y & -> & Sc & _). destruct (accept_first _ _ _ Ta') as (c' & y' & -> & Sc' & _).
    assert (w = w') as <- by (eapply (blank_unique d w Bw w' c _ c'); eauto; cbn [app] in *; eauto).
    match goal with E : _ = _ |- _ => apply app_inv_head in E; symmetry in E end.
    match goal with E : _ = _ |- _ => apply (tok_unique _ _ _ _ _ _ _ Ta Ta' Lg Lg') in E as (<- & Ey & <-) end.
    destruct (IH _ _ Hr') as [(e & -> & He)|(e & -> & He)]; [left|right]; exists e; auto.
Qed.

(* no document is a prefix of another *)
Lemma toks_start j : exists a ts, toks j = a :: ts /\ a <> AArrE /\ a <> AObjE /\ a <> ASep.
Proof. destruct j; cbn; eexists; eexists; (split; [reflexivity|repeat split; discriminate]). Qed.
Definition pf (j : json) : Prop := forall j' ts ts', toks j ++ ts = toks j' ++ ts' -> j = j' /\ ts = ts'.
Lemma arr_pf l : Forall pf l -> forall l' ts ts', sep_by (map toks l) ++ AArrE :: ts = sep_by (map toks l') ++ AArrE :: ts' -> l = l' /\ ts = ts'.
Proof.
  induction 1 as [|j l Hj _ IH]; intros l' ts ts' E.
  - destruct l' as [|j' l']; [cbn in E; injection E as ->; auto|]. exfalso.
    destruct (toks_start j') as (a & u & Ea & N & _). cbn [map sep_by] in E. rewrite Ea in E. destruct l'; cbn in E; congruence.
  - destruct l' as [|j' l'].
    { exfalso. destruct (toks_start j) as (a & u & Ea & N & _). cbn [map sep_by] in E. rewrite Ea in E. destruct l; cbn in E; congruence. }
    destruct l as [|j2 l], l' as [|j2' l']; cbn [map sep_by] in E.
    + apply Hj in E as (-> & E). injection E as ->. auto.
    + rewrite <- app_assoc in E. apply Hj in E as (-> & E). discriminate E.
    + rewrite <- app_assoc in E. apply Hj in E as (-> & E). discriminate E.
    + rewrite <- !app_assoc in E. apply Hj in E as (-> & E). cbn [app] in E. injection E as E.
      destruct (IH (j2' :: l') ts ts' E) as (-> & ->). auto.
Qed.
Lemma obj_pf (l : list (str * json)) : Forall (fun kv => pf (snd kv)) l -> forall l' ts ts',
  sep_by (map (fun kv => AStr (fst kv) :: AKey :: toks (snd kv)) l) ++ AObjE :: ts = sep_by (map (fun kv => AStr (fst kv) :: AKey :: toks (snd kv)) l') ++ AObjE :: ts' -> l = l' /\ ts = ts'.
Proof.
  induction 1 as [|[k j] l Hj _ IH]; intros l' ts ts' E; cbn [snd] in *.
  - destruct l' as [|[k' j'] l']; [cbn in E; injection E as ->; auto|]. exfalso.
    cbn [map sep_by fst snd] in E. destruct l'; cbn in E; congruence.
  - destruct l' as [|[k' j'] l'].
    { exfalso. cbn [map sep_by fst snd] in E. destruct l; cbn in E; congruence. }
    destruct l as [|j2 l], l' as [|j2' l']; cbn [map sep_by fst snd app] in E.
    + injection E as -> E. apply Hj in E as (-> & E). injection E as ->. auto.
    + injection E as -> E. rewrite <- app_assoc in E. apply Hj in E as (-> & E). discriminate E.
    + injection E as -> E. rewrite <- app_assoc in E. apply Hj in E as (-> & E). discriminate E.
    + injection E as -> E. rewrite <- !app_assoc in E. apply Hj in E as (-> & E). cbn [app] in E. injection E as E.
      destruct (IH (j2' :: l') ts ts' E) as (-> & ->). auto.
Qed.
Lemma toks_pf : forall j, pf j.
Proof.
  apply json_ind'.
  1-5: intros; intros [] ts ts' E; cbn [toks app] in E; try discriminate E; injection E; intros; subst; auto.
  - intros l H [] ts ts' E; cbn [toks app] in E; try discriminate E. injection E as E. rewrite <- !app_assoc in E.
    apply arr_pf in E as (-> & ->); auto.
  - intros l H [] ts ts' E; cbn [toks app] in E; try discriminate E. injection E as E. rewrite <- !app_assoc in E.
    apply obj_pf in E as (-> & ->); auto.
Qed.

Lemma doc_unique d j s rest j' rest' : doc_text d j s rest -> doc_text d j' s rest' -> j = j' /\ rest = rest'.
Proof.
  intros H H'. destruct (accepts_det _ _ _ _ H _ _ H') as [(e & E & K)|(e & E & K)].
  - rewrite <- (app_nil_r (toks j')) in E. apply toks_pf in E as (-> & <-). inversion K; subst. auto.
  - rewrite <- (app_nil_r (toks j)) in E. apply toks_pf in E as (-> & <-). inversion K; subst. auto.
Qed.

(* JSON texts are accepted *)
Lemma stop_nhead s (P : N -> Prop) : num_stop s -> (forall c, P c -> digit_char c \/ c = 46 \/ c = 101 \/ c = 69) -> nhead P s.
Proof. intros (c & s' & -> & A & B & C & D) H c' s2 E Hp. injection E as <- <-. destruct (H _ Hp) as [X|[X|[X|X]]]; auto. Qed.
Lemma exp_nhead ex s (P : N -> Prop) : sloppy_exp ex -> nhead P s -> ~ P 101 -> ~ P 69 -> nhead P (ex ++ s).
Proof.
  intros He Hs N1 N2. destruct ex as [|c ex]; [exact Hs|]. cbn [app]. apply nhead_cons.
  destruct (sloppy_exp_head _ _ _ He eq_refl) as [->| ->]; auto.
Qed.
Lemma lexes_accepts d s ts rest : lexes d s ts rest -> accepts d s ts rest.
Proof.
  induction 1 as [s|w t x s ts rest Bw Ht Hn _ IH]; [constructor|]. apply ac_cons; auto; [now apply ta_text|].
  intro N. specialize (Hn N).
  assert (Nd : nhead digit_char s) by (apply stop_nhead; auto).
  assert (N46 : nhead (fun c => c = 46) s) by (apply stop_nhead; auto).
  assert (Ne : nhead (fun c => c = 101 \/ c = 69) s) by (apply stop_nhead; auto; intuition).
  assert (D101 : ~ digit_char 101) by (unfold digit_char; lia). assert (D69 : ~ digit_char 69) by (unfold digit_char; lia).
  destruct Ht; try contradiction.
  - destruct (int_text_inv _ _ H) as (c & ds & -> & Hc & Hd).
    rewrite <- (app_nil_r ds). apply (stops_longest c ds [] []); auto; try now left.
    repeat split; auto; cbn [app] in *; try congruence.
  - destruct (float_text_inv _ H) as (c & ds & fr & ex & -> & Hc & Hd & Hfr & Hex & Hne).
    assert (Sf : sloppy_frac fr) by (destruct Hfr as [->|(d1 & -> & _ & D)]; [now left|right; eauto]).
    assert (Se : sloppy_exp ex) by (destruct Hex as [->|(e & sg & d1 & A & B & _ & D & ->)]; [now left|right; exists e, sg, d1; auto]).
    apply stops_longest; auto. repeat split.
    + destruct Sf as [->|(d1 & -> & _)]; [cbn [app]; apply exp_nhead; auto|]. cbn [app]. apply nhead_cons. unfold digit_char. lia.
    + intros ->. apply exp_nhead; auto; discriminate.
    + intros _. apply exp_nhead; auto.
    + intros _. exact Ne.
    + exact Nd.
    + intros e' E. exfalso. destruct Hex as [->|(e & sg & d1 & A & B & C & D & ->)]; [discriminate|]. injection E as _ E.
      apply app_eq_nil in E as (_ & ->). congruence.
Qed.
