(* ProofJson6.v - line numbers. *)
From Coq Require String. Import String.StringSyntax.
From Verif Require Import Base Dec ModelJson ModelJsonW ModelJsonT SpecJson ProofJson1 ProofJson4 ProofJson5.
Local Open Scope outcome_scope.
Local Open Scope N_scope.

Lemma nl_app a b : newlines (a ++ b) = newlines a + newlines b.
Proof. induction a as [|c a IH]; cbn [newlines app]; auto. rewrite IH. destruct (c =? 10); lia. Qed.

Definition tracks (r r' : reader) : Prop :=
  (rerr r' = None -> rerr r = None /\ exists c, rin r = c ++ rin r' /\ rline r' = rline r + newlines c) /\
  (forall e, rerr r = None -> rerr r' = Some e ->
     exists c x, rin r = c ++ x ++ rin r' /\ (length x <= 1)%nat /\ err_line e = rline r + newlines c) /\
  (forall e, rerr r = Some e -> rerr r' = Some e /\ rin r' = rin r).

Lemma tr_same r r' : rerr r' = rerr r -> rin r' = rin r -> rline r' = rline r -> tracks r r'.
Proof.
  intros E I L. split; [|split].
  - intro H. split; [congruence|]. exists []. cbn. rewrite I, L. split; [auto|lia].
  - intros e H1 H2. congruence.
  - intros e H. split; congruence.
Qed.
Lemma tr_refl r : tracks r r.
Proof. apply tr_same; reflexivity. Qed.
Lemma tr_trans a b c : tracks a b -> tracks b c -> tracks a c.
Proof.
  intros (A1 & A2 & A3) (B1 & B2 & B3). split; [|split].
  - intro H. destruct (B1 H) as (Hb & y & Y1 & Y2). destruct (A1 Hb) as (Ha & x & X1 & X2).
    split; auto. exists (x ++ y). rewrite nl_app, <- app_assoc, <- Y1. split; auto. lia.
  - intros e Ha Hc. destruct (rerr b) as [eb|] eqn:Eb.
    + destruct (B3 _ eq_refl) as [E1 E2]. assert (eb = e) as -> by congruence.
      destruct (A2 e Ha eq_refl) as (x & y & X1 & X2 & X3). exists x, y. rewrite E2. auto.
    + destruct (A1 eq_refl) as (_ & x & X1 & X2). destruct (B2 e eq_refl Hc) as (y & z & Y1 & Y2 & Y3).
      exists (x ++ y), z. rewrite nl_app, <- app_assoc, <- Y1. split; [auto|]. split; [auto|]. lia.
  - intros e H. destruct (A3 e H) as [E1 E2]. destruct (B3 e E1) as [E3 E4]. split; congruence.
Qed.
Lemma tr_err c r : tracks r (rerror_set c r).
Proof.
  unfold rerror_set. destruct (rerr r) as [e|] eqn:E; [apply tr_refl|]. split; [discriminate|]. split; [|congruence].
  intros e _ H. injection H as <-. exists [], []. cbn. split; [auto|]. split; [lia|lia].
Qed.
Lemma tr_save c r : tracks r (save c r). Proof. apply tr_same; reflexivity. Qed.
Lemma tr_reset r : tracks r (reset_buf r). Proof. apply tr_same; reflexivity. Qed.
Lemma tr_tok t r : tracks r (set_tok t r). Proof. apply tr_same; reflexivity. Qed.
#[export] Hint Resolve tr_refl tr_err tr_save tr_reset tr_tok : core.

Lemma pop_raw r c r1 : popc r = (c, r1) ->
  rerr r1 = rerr r /\ rline r1 = rline r /\ ropt r1 = ropt r /\ (rin r = c :: rin r1 \/ (c = c_eof /\ rin r1 = rin r)).
Proof.
  unfold popc. destruct (reof r || rfail r).
  { intro H. injection H as <- <-. cbn. auto 10. }
  destruct (rin r) as [|x s] eqn:Ei; intro H; injection H as <- <-; cbn; auto 10.
Qed.

Lemma rok_err r : rok r = true -> rerr r = None.
Proof. unfold rok. destruct (rerr r); [discriminate|auto]. Qed.

Lemma tr_pop r c r1 : rerr r = None -> popc r = (c, r1) -> c <> 10 -> tracks r r1.
Proof.
  intros Hn E Hc. destruct (pop_raw _ _ _ E) as (E1 & L1 & _ & [I1|[_ I1]]).
  - split; [|split]; try congruence. intros _. split; auto. exists [c]. split; [exact I1|].
    cbn [newlines]. destruct (N.eqb_spec c 10); [contradiction|]. lia.
  - apply tr_same; auto.
Qed.
Lemma tr_pop_nl r r1 : rerr r = None -> popc r = (10, r1) -> tracks r (newline r1).
Proof.
  intros Hn E. destruct (pop_raw _ _ _ E) as (E1 & L1 & _ & [I1|[K _]]); [|discriminate].
  split; [|split]; cbn; try congruence. intros _. split; auto. exists [10]. split; [exact I1|].
  cbn [newlines]. rewrite L1. reflexivity.
Qed.
Lemma tr_pop_err r c r1 x : rerr r = None -> popc r = (c, r1) -> tracks r (rerror_set x r1).
Proof.
  intros Hn E. destruct (pop_raw _ _ _ E) as (E1 & L1 & _ & I1).
  unfold rerror_set. rewrite E1, Hn. split; [discriminate|]. split; [|congruence].
  intros e _ H. injection H as <-. cbn. destruct I1 as [I1|[_ I1]].
  - exists [], [c]. cbn. split; [auto|]. split; [lia|]. rewrite L1. lia.
  - exists [], []. cbn. split; [auto|]. split; [lia|]. rewrite L1. lia.
Qed.
Lemma tr_pop_save_err r c r1 x : rerr r = None -> popc r = (c, r1) -> tracks r (rerror_set x (save c r1)).
Proof.
  intros Hn E. destruct (pop_raw _ _ _ E) as (E1 & L1 & _ & I1).
  unfold rerror_set. cbn [rerr save set_buf]. rewrite E1, Hn. split; [discriminate|]. split; [|congruence].
  intros e _ H. injection H as <-. cbn. destruct I1 as [I1|[_ I1]].
  - exists [], [c]. cbn. split; [auto|]. split; [lia|]. rewrite L1. lia.
  - exists [], []. cbn. split; [auto|]. split; [lia|]. rewrite L1. lia.
Qed.
Lemma tr_peek r c r1 : peekc r = (c, r1) -> tracks r r1 /\ rerr r1 = rerr r /\ ropt r1 = ropt r.
Proof.
  unfold peekc. destruct (reof r || rfail r).
  { intro H. injection H as <- <-. split; [apply tr_same; reflexivity|auto]. }
  destruct (rin r) as [|x s] eqn:Ei; intro H; injection H as <- <-; (split; [apply tr_same; auto|auto]).
Qed.

(* without comments *)
Lemma skip_comment_err fuel : forall r e r', rerr r = Some e -> skip_comment fuel r = Ok r' -> r' = r.
Proof.
  destruct fuel; intros r e r' He H; [discriminate|]. cbn [skip_comment] in H.
  unfold rok in H. rewrite He in H. injection H as <-. reflexivity.
Qed.
Lemma tr_next_char fuel : forall r c r', o_comments (ropt r) = false -> next_char fuel r = Ok (c, r') -> tracks r r'.
Proof.
  induction fuel as [|f IH]; intros r c r' Hc H; [discriminate|]. cbn [next_char] in H.
  destruct (rok r) eqn:Ok0; [|injection H as <- <-; auto].
  pose proof (rok_err _ Ok0) as Hn.
  destruct (popc r) as [x r0] eqn:E. destruct (pop_raw _ _ _ E) as (E1 & _ & O1 & _).
  set (r1 := if x =? c_nl then newline r0 else r0) in H.
  assert (H1 : tracks r r1 /\ ropt r1 = ropt r).
  { unfold r1. unfold c_nl. destruct (N.eqb_spec x 10) as [->|Hx].
    - split; [eapply tr_pop_nl; eauto|auto].
    - split; [eapply tr_pop; eauto|auto]. }
  destruct H1 as [T1 O2]. clearbody r1.
  destruct (isspace x).
  { eapply tr_trans; [exact T1|]. eapply IH; [|exact H]. congruence. }
  destruct (x =? c_slash); [|injection H as <- <-; auto].
  destruct (peekc r1) as [d r2] eqn:Ep. destruct (tr_peek _ _ _ Ep) as (T2 & E2 & O3).
  destruct (d =? c_slash); [|injection H as <- <-; eapply tr_trans; eauto].
  rewrite O3, O2, Hc in H. binv H.
  assert (He : exists er, rerr (rerror_set EComment r2) = Some er).
  { unfold rerror_set. destruct (rerr r2) eqn:Er; cbn; eauto. }
  destruct He as [er He]. rewrite (skip_comment_err _ _ _ _ He K) in H.
  eapply tr_trans; [exact T1|]. eapply tr_trans; [exact T2|]. eapply tr_trans; [apply tr_err|].
  eapply IH; [|exact H]. rewrite (ev_opt _ _ (ev_err EComment r2)). congruence.
Qed.

Lemma tr_literal k l : forall r, ~ In 10 l -> rerr r = None ->
  tracks r (rerror_set (ELiteral k) (snd (literal_loop l r))) /\
  (fst (literal_loop l r) = [] -> tracks r (snd (literal_loop l r))).
Proof.
  induction l as [|x l IH]; intros r Hl Hn; cbn [literal_loop].
  { cbn. split; auto. }
  destruct (rok r) eqn:Ok0; [|cbn; split; [auto|discriminate]].
  destruct (popc r) as [c r1] eqn:E. destruct (N.eqb_spec c x) as [->|Hx].
  - assert (T : tracks r r1) by (eapply tr_pop; eauto; intros ->; apply Hl; now left).
    destruct (pop_raw _ _ _ E) as (E1 & _).
    destruct (IH r1) as [A B]; [intro; apply Hl; now right|congruence|].
    split; [eapply tr_trans; eauto|]. intro. eapply tr_trans; eauto.
  - cbn. split; [eapply tr_pop_err; eauto|discriminate].
Qed.
Lemma tr_read_literal l r : ~ In 10 l -> rok r = true -> tracks r (read_literal l r).
Proof.
  intros Hl Ok0. destruct (tr_literal l l r Hl (rok_err _ Ok0)) as [A B]. unfold read_literal.
  destruct (literal_loop l r) as [rest r1]. cbn [fst snd] in *. destruct rest; auto.
Qed.

Lemma hex_not_nl c v : hexval c = Some v -> c <> 10.
Proof. intros H ->. discriminate. Qed.
Lemma tr_hex n : forall code r, tracks r (snd (hex_loop n code r)).
Proof.
  induction n as [|n IH]; intros code r; cbn [hex_loop]; auto.
  destruct (rok r) eqn:Ok0; auto. destruct (popc r) as [c r1] eqn:E.
  destruct (hexval c) eqn:Eh; (eapply tr_trans; [|apply IH]).
  - eapply tr_pop; eauto using rok_err, hex_not_nl.
  - eapply tr_pop_err; eauto using rok_err.
Qed.
Lemma tr_raw_hex n : forall r, tracks r (raw_hex_loop n r).
Proof.
  induction n as [|n IH]; intros r; cbn [raw_hex_loop]; auto.
  destruct (rok r) eqn:Ok0; auto. destruct (popc r) as [c r1] eqn:E.
  destruct (hexval c) eqn:Eh; (eapply tr_trans; [|apply IH]).
  - eapply tr_trans; [|apply tr_save]. eapply tr_pop; eauto using rok_err, hex_not_nl.
  - eapply tr_pop_err; eauto using rok_err.
Qed.
Lemma ok_inj {A} (a b : A) : Ok a = Ok b -> a = b.
Proof. congruence. Qed.
Lemma tr_save_code code r r' : save_code code r = Ok r' -> tracks r r'.
Proof.
  unfold save_code. intro H.
  repeat match type of H with (if ?b then _ else _) = _ => destruct b end; try discriminate;
  injection H as <-; repeat (eapply tr_trans; [|apply tr_save]); auto.
Qed.
Lemma tr_read_unicode r r' : read_unicode r = Ok r' -> tracks r r'.
Proof.
  unfold read_unicode, unescape_unicode. destruct (o_unescape (ropt r)).
  - pose proof (tr_hex 4 0 r) as T. destruct (hex_loop 4 0 r) as [code r1]. cbn [snd] in T. intro H.
    destruct (rok r1); [|injection H as <-; auto]. eapply tr_trans; [exact T|]. eapply tr_save_code; eauto.
  - intro H. apply ok_inj in H. subst r'. eapply tr_trans; [apply (tr_save c_bslash)|].
    eapply tr_trans; [apply (tr_save 117)|]. apply tr_raw_hex.
Qed.
Lemma cont_not_nl c : (N.land c 0xC0 =? 0x80) = true -> c <> 10.
Proof. intros H ->. discriminate. Qed.
Lemma tr_cont n : forall code r, tracks r (snd (cont_loop n code r)).
Proof.
  induction n as [|n IH]; intros code r; cbn [cont_loop]; auto.
  destruct (rok r) eqn:Ok0; auto. destruct (popc r) as [c r1] eqn:E.
  destruct (N.land c 192 =? 128) eqn:Eh; (eapply tr_trans; [|apply IH]).
  - eapply tr_trans; [|apply tr_save]. eapply tr_pop; eauto using rok_err, cont_not_nl.
  - eapply tr_pop_save_err; eauto using rok_err.
Qed.
Lemma tr_validate c r r' : validate_unicode c r = Ok r' -> tracks r r'.
Proof.
  unfold validate_unicode. destruct (lead_ones c) as [bytes|]; [|discriminate].
  set (r1 := if (4 <? bytes) || (bytes <? 2) then rerror_set (EUtf8Head c) (save c r) else save c r).
  assert (T1 : tracks r r1).
  { unfold r1. destruct (_ || _); auto. eapply tr_trans; [apply tr_save|auto]. }
  clearbody r1.
  match goal with |- context [cont_loop ?n ?k r1] => pose proof (tr_cont n k r1) as T2; destruct (cont_loop n k r1) as [code r2] end.
  cbn [snd] in *. assert (T : tracks r r2) by (eapply tr_trans; eauto).
  match goal with |- context [if ?b then _ else _] => destruct b end; intro H; injection H as <-; auto.
  eapply tr_trans; [exact T|auto].
Qed.

Lemma escape_not_nl e v : escape_value e = Some v -> e <> 10.
Proof. intros H ->. discriminate. Qed.
Lemma tr_string_loop fuel : forall r r', string_loop fuel r = Ok r' -> tracks r r'.
Proof.
  induction fuel as [|f IH]; intros r r' H; [discriminate|]. cbn [string_loop] in H.
  destruct (rok r) eqn:Ok0; [|injection H as <-; auto]. pose proof (rok_err _ Ok0) as Hn.
  destruct (popc r) as [c r1] eqn:E. unfold c_nl in H. destruct (N.eqb_spec c 10) as [->|Hc].
  { eapply tr_trans; [|eapply IH; exact H]. eapply tr_pop_err; eauto. }
  assert (T1 : tracks r r1) by (eapply tr_pop; eauto). destruct (pop_raw _ _ _ E) as (E1 & _).
  assert (Hn1 : rerr r1 = None) by congruence.
  eapply tr_trans; [exact T1|].
  destruct (N.testbit c 7 && o_validate (ropt r1)).
  { binv H. eapply tr_trans; [eapply tr_validate; eauto|eauto]. }
  destruct (c =? c_quote); [injection H as <-; auto|].
  destruct (c =? c_bslash); [|eapply tr_trans; [apply tr_save|eauto]].
  destruct (popc r1) as [e r2] eqn:E2. destruct (N.eqb_spec e 117) as [->|He].
  { binv H. eapply tr_trans; [eapply tr_pop; [exact Hn1|exact E2|discriminate]|].
    eapply tr_trans; [eapply tr_read_unicode; eauto|eauto]. }
  destruct (escape_value e) eqn:Ev.
  - eapply tr_trans; [eapply tr_pop; [exact Hn1|exact E2|eapply escape_not_nl; eauto]|].
    eapply tr_trans; [apply tr_save|eauto].
  - injection H as <-. eapply tr_pop_err; eauto.
Qed.

Lemma tr_digits fuel : forall r r', digits_loop fuel r = Ok r' -> tracks r r'.
Proof.
  induction fuel as [|f IH]; intros r r' H; [discriminate|]. cbn [digits_loop] in H.
  destruct (rok r) eqn:Ok0; [|injection H as <-; auto]. pose proof (rok_err _ Ok0) as Hn.
  destruct (peekc r) as [c r1] eqn:Ep. destruct (tr_peek _ _ _ Ep) as (T1 & E1 & _).
  eapply tr_trans; [exact T1|].
  destruct (isdigit c) eqn:Ed; [|injection H as <-; auto].
  destruct (popc r1) as [d r2] eqn:E2. eapply tr_trans; [|eapply IH; exact H].
  eapply tr_trans; [|apply tr_save]. apply (tr_pop r1 d r2); [congruence|exact E2|].
  intros ->. unfold peekc, popc in *. destruct (reof r || rfail r) eqn:Eo.
  - injection Ep as <- <-. cbn in E2. rewrite orb_true_r in E2. discriminate.
  - destruct (rin r) eqn:Ei; injection Ep as <- <-.
    + cbn in E2. discriminate.
    + rewrite Eo, Ei in E2. injection E2 as -> _. discriminate Ed.
Qed.

Lemma peek_pop r c r1 d r2 x : peekc r = (c, r1) -> popc r1 = (d, r2) -> c = x -> x <> 10 -> d <> 10.
Proof.
  intros Ep E2 -> Hx ->. unfold peekc, popc in *. destruct (reof r || rfail r) eqn:Eo.
  - injection Ep as <- <-. cbn in E2. rewrite orb_true_r in E2. discriminate.
  - destruct (rin r) eqn:Ei; injection Ep as <- <-.
    + cbn in E2. discriminate.
    + rewrite Eo, Ei in E2. injection E2 as -> _. contradiction.
Qed.
Lemma tr_read_char x r : x <> 10 -> tracks r (snd (read_char x r)).
Proof.
  intro Hx. unfold read_char. destruct (rok r) eqn:Ok0; auto. pose proof (rok_err _ Ok0) as Hn.
  destruct (peekc r) as [c r1] eqn:Ep. destruct (tr_peek _ _ _ Ep) as (T1 & E1 & _).
  destruct (N.eqb_spec c x) as [Ec|]; auto. destruct (popc r1) as [d r2] eqn:E2. cbn [snd].
  eapply tr_trans; [exact T1|]. eapply tr_trans; [|apply tr_save].
  apply (tr_pop r1 d r2); [congruence|exact E2|]. eapply peek_pop; eauto.
Qed.
Lemma tr_read_chars x y r : x <> 10 -> y <> 10 -> tracks r (snd (read_chars x y r)).
Proof.
  intros Hx Hy. unfold read_chars. destruct (rok r) eqn:Ok0; auto. pose proof (rok_err _ Ok0) as Hn.
  destruct (peekc r) as [c r1] eqn:Ep. destruct (tr_peek _ _ _ Ep) as (T1 & E1 & _).
  destruct (N.eqb_spec c x) as [Ec|].
  { destruct (popc r1) as [d r2] eqn:E2. cbn [snd].
    eapply tr_trans; [exact T1|]. eapply tr_trans; [|apply tr_save].
    apply (tr_pop r1 d r2); [congruence|exact E2|]. eapply peek_pop; eauto. }
  destruct (peekc r1) as [c2 r1'] eqn:Ep'. destruct (tr_peek _ _ _ Ep') as (T1' & E1' & _).
  destruct (N.eqb_spec c2 y) as [Ec|]; [|cbn [snd]; eapply tr_trans; eauto].
  destruct (popc r1') as [d r2] eqn:E2. cbn [snd].
  eapply tr_trans; [exact T1|]. eapply tr_trans; [exact T1'|]. eapply tr_trans; [|apply tr_save].
  apply (tr_pop r1' d r2); [congruence|exact E2|]. eapply peek_pop; eauto.
Qed.
Lemma tr_number c r t r' : read_number c r = Ok (t, r') -> tracks r r'.
Proof.
  unfold read_number. intro H. binv H. apply tr_digits in K.
  pose proof (tr_read_char 46 a) as T2. destruct (read_char 46 a) as [dot r2]. cbn [snd] in T2.
  binv H.
  pose proof (tr_read_chars 101 69 a0) as T4. destruct (read_chars 101 69 a0) as [ex r4]. cbn [snd] in T4.
  binv H. injection H as _ <-.
  eapply tr_trans; [apply tr_reset|]. eapply tr_trans; [apply tr_save|]. eapply tr_trans; [exact K|].
  eapply tr_trans; [apply T2; discriminate|].
  eapply tr_trans; [|eapply tr_trans; [apply T4; discriminate|]].
  - destruct dot; [eapply tr_digits; exact K0|injection K0 as <-; auto].
  - destruct ex; [|injection K1 as <-; auto].
    eapply tr_trans; [apply (tr_read_chars 43 45); discriminate|eapply tr_digits; exact K1].
Qed.

Lemma tr_lex r t r' : o_comments (ropt r) = false -> lex_token r = Ok (t, r') -> tracks r r'.
Proof.
  unfold lex_token. intros Hc H. destruct (rok r) eqn:Ok0; cbn [negb] in H; [|injection H as <- <-; auto].
  binv H. destruct a as [c r1]. apply tr_next_char in K; auto. eapply tr_trans; [exact K|].
  destruct (rok r1) eqn:Ok1; cbn [negb] in H; [|injection H as <- <-; auto].
  assert (Hl : forall l, ~ In 10 l -> tracks r1 (read_literal l r1)) by (intros; now apply tr_read_literal).
  repeat match type of H with
  | (if ?b then Ok _ else _) = _ => destruct b; [injection H as <- <-; auto; apply Hl; vm_compute; intuition discriminate|]
  end.
  destruct (c =? c_quote).
  { binv H. injection H as <- <-. unfold read_string in K0. apply tr_string_loop in K0.
    eapply tr_trans; [apply tr_reset|exact K0]. }
  destruct ((c =? 45) || isdigit c); [eapply tr_number; eauto|].
  injection H as <- <-. auto.
Qed.

Lemma rs_tracks r r' : rsteps r r' -> o_comments (ropt r) = false -> tracks r r'.
Proof.
  induction 1 as [r|r t r1 r2 E _ IH|r t r2 _ IH|r c r2 _ _ IH]; intro Hc.
  - auto.
  - eapply tr_trans; [eapply tr_lex; eauto|]. apply IH.
    pose proof (rs_evolves _ _ (rs_lex1 _ _ _ E)) as V. rewrite (ev_opt _ _ V). exact Hc.
  - eapply tr_trans; [apply tr_tok|]. apply IH. exact Hc.
  - eapply tr_trans; [apply tr_err|]. apply IH. rewrite (ev_opt _ _ (ev_err c r)). exact Hc.
Qed.
