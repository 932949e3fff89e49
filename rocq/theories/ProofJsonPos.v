(* ProofJsonPos.v - line and column of the reader.  The lemmas from next_char on are
   those of ProofJson6 with another meaning of tracks. *)
From Coq Require String. Import String.StringSyntax.
From Verif Require Import Base Dec ModelJson ModelJsonW ModelJsonT SpecJson SpecJsonPos ProofJson1 ProofJson4 ProofJson5 ProofJson6.
Local Open Scope outcome_scope.
Local Open Scope N_scope.

Lemma col_app a b : forall k, column_from k (a ++ b) = column_from (column_from k a) b.
Proof. induction a as [|c a IH]; intro k; cbn; auto. Qed.

Section Pos.
Context (s0 : str).
(* where the reader is *)
Definition located (r : reader) : Prop :=
  (reof r = true -> rin r = []) /\
  match rerr r with
  | None => exists c, s0 = c ++ rin r /\ rline r = 1 + newlines c /\
      (rpos r = column c \/ (rfail r = true /\ rin r = [] /\ rpos r = column c + 1))
  | Some e => exists c x, s0 = c ++ x ++ rin r /\ (length x <= 1)%nat /\ err_line e = 1 + newlines c /\
      (err_pos e = column c + N.of_nat (length x) \/ (x = [] /\ rin r = [] /\ rfail r = true /\ err_pos e = column c + 1))
  end.
Definition tracks (r r' : reader) : Prop := located r -> located r'.

Lemma tr_refl r : tracks r r. Proof. unfold tracks. auto. Qed.
Lemma tr_trans a b c : tracks a b -> tracks b c -> tracks a c. Proof. unfold tracks. auto. Qed.
Lemma tr_save c r : tracks r (save c r). Proof. intros I. exact I. Qed.
Lemma tr_reset r : tracks r (reset_buf r). Proof. intros I. exact I. Qed.
Lemma tr_tok t r : tracks r (set_tok t r). Proof. intros I. exact I. Qed.
Lemma tr_err c r : tracks r (rerror_set c r).
Proof.
  intros (I1 & I2). unfold rerror_set. destruct (rerr r) as [e|] eqn:E; [split; [exact I1|now rewrite E]|].
  split; [exact I1|]. cbn [rerr rin]. destruct I2 as (k & Q1 & Q2 & Q3). exists k, []. cbn [app length err_line err_pos].
  split; [exact Q1|]. split; [lia|]. split; [exact Q2|]. destruct Q3 as [Q3|(Qf & Q3 & Q4)]; [left; rewrite Q3; cbn; lia|right; auto].
Qed.
Local Hint Resolve tr_refl tr_err tr_save tr_reset tr_tok : core.

(* popping, while the reader has not failed *)
Lemma pop_at r c r1 : rok r = true -> located r -> popc r = (c, r1) -> rerr r = None /\
  exists k, s0 = k ++ rin r /\ rline r1 = 1 + newlines k /\ rpos r1 = column k + 1 /\ rerr r1 = None /\
    ((rin r = c :: rin r1 /\ reof r1 = false /\ rfail r1 = false) \/ (rin r = [] /\ rin r1 = [] /\ rfail r1 = true /\ c = c_eof)).
Proof.
  intros Ok0 (I1 & I2) E. pose proof (rok_err _ Ok0) as Hn. split; [exact Hn|]. rewrite Hn in I2. destruct I2 as (k & Q1 & Q2 & Q3).
  assert (F : rfail r = false) by (unfold rok in Ok0; rewrite Hn in Ok0; now destruct (rfail r)).
  assert (P : rpos r = column k) by (destruct Q3 as [Q3|(Q3 & _)]; [exact Q3|congruence]).
  exists k. split; [exact Q1|]. unfold popc in E. rewrite F, orb_false_r in E. destruct (reof r) eqn:Ee.
  - injection E as <- <-. cbn. rewrite P. repeat split; auto.
  - destruct (rin r) as [|y l] eqn:Ei; injection E as <- <-; cbn; rewrite P; repeat split; auto.
Qed.
Lemma col_snoc k c : column (k ++ [c]) = if c =? 10 then 1 else column k + 1.
Proof. unfold column. rewrite col_app. cbn. now destruct (c =? 10). Qed.
Lemma nl_snoc k c : newlines (k ++ [c]) = newlines k + (if c =? 10 then 1 else 0).
Proof. rewrite nl_app. cbn. lia. Qed.

Lemma tr_pop r c r1 : rok r = true -> popc r = (c, r1) -> c <> 10 -> tracks r r1.
Proof.
  intros Ok0 E Hc I. destruct (pop_at r c r1 Ok0 I E) as (Hn & k & Q1 & Q2 & Q3 & Q4 & [(A & B & D)|(A & B & D & _)]); split.
  - congruence.
  - rewrite Q4. exists (k ++ [c]). rewrite <- app_assoc. cbn [app]. rewrite <- A, col_snoc, nl_snoc.
    destruct (N.eqb_spec c 10); [contradiction|]. split; [exact Q1|]. split; [rewrite Q2; f_equal; symmetry; apply N.add_0_r|]. now left.
  - auto.
  - rewrite Q4. exists k. rewrite B, <- A. split; [exact Q1|]. split; [exact Q2|]. right. auto.
Qed.
Lemma tr_pop_nl r r1 : rok r = true -> popc r = (10, r1) -> tracks r (newline r1).
Proof.
  intros Ok0 E I. destruct (pop_at r 10 r1 Ok0 I E) as (Hn & k & Q1 & Q2 & Q3 & Q4 & [(A & B & D)|(A & B & D & K)]); [|discriminate].
  split; [cbn; congruence|]. cbn [newline rerr rin rline rpos rfail]. rewrite Q4. exists (k ++ [10]). rewrite <- app_assoc. cbn [app]. rewrite <- A, col_snoc, nl_snoc.
  split; [exact Q1|]. split; [rewrite Q2; cbn [N.eqb]; rewrite N.add_assoc; reflexivity|]. now left.
Qed.
Lemma tr_pop_err r c r1 x : rok r = true -> popc r = (c, r1) -> tracks r (rerror_set x r1).
Proof.
  intros Ok0 E I. destruct (pop_at r c r1 Ok0 I E) as (Hn & k & Q1 & Q2 & Q3 & Q4 & [(A & B & D)|(A & B & D & _)]);
  unfold rerror_set; rewrite Q4; (split; cbn [reof rin rerr err_line err_pos]).
  - congruence.
  - exists k, [c]. cbn [app length]. rewrite <- A. split; [exact Q1|]. split; [lia|]. split; [exact Q2|]. left. rewrite Q3. reflexivity.
  - auto.
  - exists k, []. cbn [app length]. rewrite B, <- A. split; [exact Q1|]. split; [lia|]. split; [exact Q2|]. right. auto.
Qed.
Lemma tr_pop_save_err r c r1 x : rok r = true -> popc r = (c, r1) -> tracks r (rerror_set x (save c r1)).
Proof. intros Ok0 E I. pose proof (tr_pop_err r c r1 x Ok0 E I) as T. unfold rerror_set, save, set_buf in *. cbn [rerr]. destruct (rerr r1) eqn:Q; [|exact T]. unfold located in *. cbn [rerr]. rewrite Q in *. exact T. Qed.
Lemma tr_peek r c r1 : peekc r = (c, r1) -> tracks r r1 /\ rerr r1 = rerr r /\ ropt r1 = ropt r.
Proof.
  intros E. unfold peekc in E. destruct (reof r || rfail r) eqn:Ee; [|destruct (rin r) as [|y l] eqn:Ei];
  injection E as <- <-; (split; [|split; reflexivity]); intros (I1 & I2); (split; [cbn [reof rin]; auto|cbn [rerr rin rline rpos rfail]]).
  - destruct (rerr r) as [e|]; [destruct I2 as (k & x & Q1 & Q2 & Q3 & Q4); exists k, x; intuition|]. destruct I2 as (k & Q1 & Q2 & Q3). exists k. split; [exact Q1|]. split; [exact Q2|].
    destruct Q3 as [Q3|(_ & Q3)]; auto.
  - destruct (rerr r) as [e|]; rewrite Ei in I2; exact I2.
  - exact I2.
Qed.
Lemma pop_rok r c r1 : rok r = true -> popc r = (c, r1) -> c <> c_eof -> rok r1 = true.
Proof.
  intros Ok0 E Hc. pose proof (rok_err _ Ok0) as Hn.
  assert (F : rfail r = false) by (unfold rok in Ok0; rewrite Hn in Ok0; now destruct (rfail r)).
  unfold popc in E. rewrite F in E. destruct (reof r || false); [injection E as <- <-; contradiction|].
  destruct (rin r); injection E as <- <-; [contradiction|]. unfold rok. cbn. now rewrite Hn.
Qed.
Lemma peek_rok r c r1 : rerr r = None -> peekc r = (c, r1) -> c <> c_eof -> rok r1 = true.
Proof.
  intros Hn E Hc. unfold peekc in E. destruct (reof r || rfail r) eqn:F; [injection E as <- <-; contradiction|].
  destruct (rin r); injection E as <- <-; [contradiction|]. unfold rok. rewrite Hn. apply orb_false_iff in F. now rewrite (proj2 F).
Qed.

(* without comments *)
Lemma skip_comment_err fuel : forall r e r', rerr r = Some e -> skip_comment fuel r = Ok r' -> r' = r.
Proof.
  destruct fuel; intros r e r' He H; [discriminate|]. cbn [skip_comment] in H.
  unfold rok in H. rewrite He in H. injection H as <-. reflexivity.
Qed.
Lemma tr_next_char fuel : forall r c r', o_comments (ropt r) = false -> next_char fuel r = Ok (c, r') -> tracks r r'.
Proof.
  induction fuel as [|f IH]; intros r c r' Hc H; [discriminate|]. cbn [next_char] in H.
  destruct (rok r) eqn:Ok0; [|injection H as <- <-; auto].
  pose proof (rok_err _ Ok0) as Hn.
  destruct (popc r) as [x r0] eqn:E. destruct (pop_raw _ _ _ E) as (E1 & _ & O1 & _).
  set (r1 := if x =? c_nl then newline r0 else r0) in H.
  assert (H1 : tracks r r1 /\ ropt r1 = ropt r).
  { unfold r1. unfold c_nl. destruct (N.eqb_spec x 10) as [->|Hx].
    - split; [eapply tr_pop_nl; eauto|auto].
    - split; [eapply tr_pop; eauto|auto]. }
  destruct H1 as [T1 O2]. clearbody r1.
  destruct (isspace x).
  { eapply tr_trans; [exact T1|]. eapply IH; [|exact H]. congruence. }
  destruct (x =? c_slash); [|injection H as <- <-; auto].
  destruct (peekc r1) as [d r2] eqn:Ep. destruct (tr_peek _ _ _ Ep) as (T2 & E2 & O3).
  destruct (d =? c_slash); [|injection H as <- <-; eapply tr_trans; eauto].
  rewrite O3, O2, Hc in H. binv H.
  assert (He : exists er, rerr (rerror_set EComment r2) = Some er).
  { unfold rerror_set. destruct (rerr r2) eqn:Er; cbn; eauto. }
  destruct He as [er He]. rewrite (skip_comment_err _ _ _ _ He K) in H.
  eapply tr_trans; [exact T1|]. eapply tr_trans; [exact T2|]. eapply tr_trans; [apply tr_err|].
  eapply IH; [|exact H]. rewrite (ev_opt _ _ (ev_err EComment r2)). congruence.
Qed.

Lemma tr_literal k l : forall r, ~ In 10 l ->
  tracks r (rerror_set (ELiteral k) (snd (literal_loop l r))) /\
  (fst (literal_loop l r) = [] -> tracks r (snd (literal_loop l r))).
Proof.
  induction l as [|x l IH]; intros r Hl; cbn [literal_loop].
  { cbn. split; auto. }
  destruct (rok r) eqn:Ok0; [|cbn; split; [auto|discriminate]].
  destruct (popc r) as [c r1] eqn:E. destruct (N.eqb_spec c x) as [->|Hx].
  - assert (T : tracks r r1) by (eapply tr_pop; eauto; intros ->; apply Hl; now left).
    destruct (IH r1) as [A B]; [intro; apply Hl; now right|].
    split; [eapply tr_trans; eauto|]. intro. eapply tr_trans; eauto.
  - cbn. split; [eapply tr_pop_err; eauto|discriminate].
Qed.
Lemma tr_read_literal l r : ~ In 10 l -> rok r = true -> tracks r (read_literal l r).
Proof.
  intros Hl Ok0. destruct (tr_literal l l r Hl) as [A B]. unfold read_literal.
  destruct (literal_loop l r) as [rest r1]. cbn [fst snd] in *. destruct rest; auto.
Qed.

Lemma hex_not_nl c v : hexval c = Some v -> c <> 10.
Proof. intros H ->. discriminate. Qed.
Lemma tr_hex n : forall code r, tracks r (snd (hex_loop n code r)).
Proof.
  induction n as [|n IH]; intros code r; cbn [hex_loop]; auto.
  destruct (rok r) eqn:Ok0; auto. destruct (popc r) as [c r1] eqn:E.
  destruct (hexval c) eqn:Eh; (eapply tr_trans; [|apply IH]).
  - eapply tr_pop; eauto using hex_not_nl.
  - eapply tr_pop_err; eauto.
Qed.
Lemma tr_raw_hex n : forall r, tracks r (raw_hex_loop n r).
Proof.
  induction n as [|n IH]; intros r; cbn [raw_hex_loop]; auto.
  destruct (rok r) eqn:Ok0; auto. destruct (popc r) as [c r1] eqn:E.
  destruct (hexval c) eqn:Eh; (eapply tr_trans; [|apply IH]).
  - eapply tr_trans; [|apply tr_save]. eapply tr_pop; eauto using hex_not_nl.
  - eapply tr_pop_err; eauto.
Qed.
Lemma ok_inj {A} (a b : A) : Ok a = Ok b -> a = b.
Proof. congruence. Qed.
Lemma tr_save_code code r r' : save_code code r = Ok r' -> tracks r r'.
Proof.
  unfold save_code. intro H.
  repeat match type of H with (if ?b then _ else _) = _ => destruct b end; try discriminate;
  injection H as <-; repeat (eapply tr_trans; [|apply tr_save]); auto.
Qed.
Lemma tr_read_unicode r r' : read_unicode r = Ok r' -> tracks r r'.
Proof.
  unfold read_unicode, unescape_unicode. destruct (o_unescape (ropt r)).
  - pose proof (tr_hex 4 0 r) as T. destruct (hex_loop 4 0 r) as [code r1]. cbn [snd] in T. intro H.
    destruct (rok r1); [|injection H as <-; auto]. eapply tr_trans; [exact T|]. eapply tr_save_code; eauto.
  - intro H. apply ok_inj in H. subst r'. eapply tr_trans; [apply (tr_save c_bslash)|].
    eapply tr_trans; [apply (tr_save 117)|]. apply tr_raw_hex.
Qed.
Lemma cont_not_nl c : (N.land c 0xC0 =? 0x80) = true -> c <> 10.
Proof. intros H ->. discriminate. Qed.
Lemma tr_cont n : forall code r, tracks r (snd (cont_loop n code r)).
Proof.
  induction n as [|n IH]; intros code r; cbn [cont_loop]; auto.
  destruct (rok r) eqn:Ok0; auto. destruct (popc r) as [c r1] eqn:E.
  destruct (N.land c 192 =? 128) eqn:Eh; (eapply tr_trans; [|apply IH]).
  - eapply tr_trans; [|apply tr_save]. eapply tr_pop; eauto using cont_not_nl.
  - eapply tr_pop_save_err; eauto.
Qed.
Lemma tr_validate c r r' : validate_unicode c r = Ok r' -> tracks r r'.
Proof.
  unfold validate_unicode. destruct (lead_ones c) as [bytes|]; [|discriminate].
  set (r1 := if (4 <? bytes) || (bytes <? 2) then rerror_set (EUtf8Head c) (save c r) else save c r).
  assert (T1 : tracks r r1).
  { unfold r1. destruct (_ || _); auto. eapply tr_trans; [apply tr_save|auto]. }
  clearbody r1.
  match goal with |- context [cont_loop ?n ?k r1] => pose proof (tr_cont n k r1) as T2; destruct (cont_loop n k r1) as [code r2] end.
  cbn [snd] in *. assert (T : tracks r r2) by (eapply tr_trans; eauto).
  match goal with |- context [if ?b then _ else _] => destruct b end; intro H; injection H as <-; auto.
  eapply tr_trans; [exact T|auto].
Qed.

Lemma escape_not_nl e v : escape_value e = Some v -> e <> 10.
Proof. intros H ->. discriminate. Qed.
Lemma tr_string_loop fuel : forall r r', string_loop fuel r = Ok r' -> tracks r r'.
Proof.
  induction fuel as [|f IH]; intros r r' H; [discriminate|]. cbn [string_loop] in H.
  destruct (rok r) eqn:Ok0; [|injection H as <-; auto]. pose proof (rok_err _ Ok0) as Hn.
  destruct (popc r) as [c r1] eqn:E. unfold c_nl in H. destruct (N.eqb_spec c 10) as [->|Hc].
  { eapply tr_trans; [|eapply IH; exact H]. eapply tr_pop_err; eauto. }
  assert (T1 : tracks r r1) by (eapply tr_pop; eauto). destruct (pop_raw _ _ _ E) as (E1 & _).
  assert (Hn1 : rerr r1 = None) by congruence.
  eapply tr_trans; [exact T1|].
  destruct (N.testbit c 7 && o_validate (ropt r1)).
  { binv H. eapply tr_trans; [eapply tr_validate; eauto|eauto]. }
  destruct (c =? c_quote); [injection H as <-; auto|].
  destruct (N.eqb_spec c c_bslash) as [->|]; [|eapply tr_trans; [apply tr_save|eauto]].
  assert (Ok1 : rok r1 = true) by (eapply pop_rok; eauto; discriminate).
  destruct (popc r1) as [e r2] eqn:E2. destruct (N.eqb_spec e 117) as [->|He].
  { binv H. eapply tr_trans; [eapply tr_pop; [exact Ok1|exact E2|discriminate]|].
    eapply tr_trans; [eapply tr_read_unicode; eauto|eauto]. }
  destruct (escape_value e) eqn:Ev.
  - eapply tr_trans; [eapply tr_pop; [exact Ok1|exact E2|eapply escape_not_nl; eauto]|].
    eapply tr_trans; [apply tr_save|eauto].
  - injection H as <-. eapply tr_pop_err; eauto.
Qed.

Lemma tr_digits fuel : forall r r', digits_loop fuel r = Ok r' -> tracks r r'.
Proof.
  induction fuel as [|f IH]; intros r r' H; [discriminate|]. cbn [digits_loop] in H.
  destruct (rok r) eqn:Ok0; [|injection H as <-; auto]. pose proof (rok_err _ Ok0) as Hn.
  destruct (peekc r) as [c r1] eqn:Ep. destruct (tr_peek _ _ _ Ep) as (T1 & E1 & _).
  eapply tr_trans; [exact T1|].
  destruct (isdigit c) eqn:Ed; [|injection H as <-; auto].
  destruct (popc r1) as [d r2] eqn:E2. eapply tr_trans; [|eapply IH; exact H].
  eapply tr_trans; [|apply tr_save]. apply (tr_pop r1 d r2); [eapply peek_rok; [|exact Ep|intros ->; discriminate Ed]; auto|exact E2|].
  intros ->. unfold peekc, popc in *. destruct (reof r || rfail r) eqn:Eo.
  - injection Ep as <- <-. cbn in E2. rewrite orb_true_r in E2. discriminate.
  - destruct (rin r) eqn:Ei; injection Ep as <- <-.
    + cbn in E2. discriminate.
    + rewrite Eo, Ei in E2. injection E2 as -> _. discriminate Ed.
Qed.

Lemma peek_pop r c r1 d r2 x : peekc r = (c, r1) -> popc r1 = (d, r2) -> c = x -> x <> 10 -> d <> 10.
Proof.
  intros Ep E2 -> Hx ->. unfold peekc, popc in *. destruct (reof r || rfail r) eqn:Eo.
  - injection Ep as <- <-. cbn in E2. rewrite orb_true_r in E2. discriminate.
  - destruct (rin r) eqn:Ei; injection Ep as <- <-.
    + cbn in E2. discriminate.
    + rewrite Eo, Ei in E2. injection E2 as -> _. contradiction.
Qed.
Lemma tr_read_char x r : x <> 10 -> x <> c_eof -> tracks r (snd (read_char x r)).
Proof.
  intros Hx Hx'. unfold read_char. destruct (rok r) eqn:Ok0; auto. pose proof (rok_err _ Ok0) as Hn.
  destruct (peekc r) as [c r1] eqn:Ep. destruct (tr_peek _ _ _ Ep) as (T1 & E1 & _).
  destruct (N.eqb_spec c x) as [Ec|]; auto. destruct (popc r1) as [d r2] eqn:E2. cbn [snd].
  eapply tr_trans; [exact T1|]. eapply tr_trans; [|apply tr_save].
  apply (tr_pop r1 d r2); [eapply peek_rok; [|exact Ep|congruence]; congruence|exact E2|]. eapply peek_pop; eauto.
Qed.
Lemma tr_read_chars x y r : x <> 10 -> x <> c_eof -> y <> 10 -> y <> c_eof -> tracks r (snd (read_chars x y r)).
Proof.
  intros Hx Hx' Hy Hy'. unfold read_chars. destruct (rok r) eqn:Ok0; auto. pose proof (rok_err _ Ok0) as Hn.
  destruct (peekc r) as [c r1] eqn:Ep. destruct (tr_peek _ _ _ Ep) as (T1 & E1 & _).
  destruct (N.eqb_spec c x) as [Ec|].
  { destruct (popc r1) as [d r2] eqn:E2. cbn [snd].
    eapply tr_trans; [exact T1|]. eapply tr_trans; [|apply tr_save].
    apply (tr_pop r1 d r2); [eapply peek_rok; [|exact Ep|congruence]; congruence|exact E2|]. eapply peek_pop; eauto. }
  destruct (peekc r1) as [c2 r1'] eqn:Ep'. destruct (tr_peek _ _ _ Ep') as (T1' & E1' & _).
  destruct (N.eqb_spec c2 y) as [Ec|]; [|cbn [snd]; eapply tr_trans; eauto].
  destruct (popc r1') as [d r2] eqn:E2. cbn [snd].
  eapply tr_trans; [exact T1|]. eapply tr_trans; [exact T1'|]. eapply tr_trans; [|apply tr_save].
  apply (tr_pop r1' d r2); [eapply peek_rok; [|exact Ep'|congruence]; congruence|exact E2|]. eapply peek_pop; eauto.
Qed.
Lemma tr_number c r t r' : read_number c r = Ok (t, r') -> tracks r r'.
Proof.
  unfold read_number. intro H. binv H. apply tr_digits in K.
  pose proof (tr_read_char 46 a) as T2. destruct (read_char 46 a) as [dot r2]. cbn [snd] in T2.
  binv H.
  pose proof (tr_read_chars 101 69 a0) as T4. destruct (read_chars 101 69 a0) as [ex r4]. cbn [snd] in T4.
  binv H. injection H as _ <-.
  eapply tr_trans; [apply tr_reset|]. eapply tr_trans; [apply tr_save|]. eapply tr_trans; [exact K|].
  eapply tr_trans; [apply T2; discriminate|].
  eapply tr_trans; [|eapply tr_trans; [apply T4; discriminate|]].
  - destruct dot; [eapply tr_digits; exact K0|injection K0 as <-; auto].
  - destruct ex; [|injection K1 as <-; auto].
    eapply tr_trans; [apply (tr_read_chars 43 45); discriminate|eapply tr_digits; exact K1].
Qed.

Lemma tr_lex r t r' : o_comments (ropt r) = false -> lex_token r = Ok (t, r') -> tracks r r'.
Proof.
  unfold lex_token. intros Hc H. destruct (rok r) eqn:Ok0; cbn [negb] in H; [|injection H as <- <-; auto].
  binv H. destruct a as [c r1]. apply tr_next_char in K; auto. eapply tr_trans; [exact K|].
  destruct (rok r1) eqn:Ok1; cbn [negb] in H; [|injection H as <- <-; auto].
  assert (Hl : forall l, ~ In 10 l -> tracks r1 (read_literal l r1)) by (intros; now apply tr_read_literal).
  repeat match type of H with
  | (if ?b then Ok _ else _) = _ => destruct b; [injection H as <- <-; auto; apply Hl; vm_compute; intuition discriminate|]
  end.
  destruct (c =? c_quote).
  { binv H. injection H as <- <-. unfold read_string in K0. apply tr_string_loop in K0.
    eapply tr_trans; [apply tr_reset|exact K0]. }
  destruct ((c =? 45) || isdigit c); [eapply tr_number; eauto|].
  injection H as <- <-. auto.
Qed.

Lemma rs_tracks r r' : rsteps r r' -> o_comments (ropt r) = false -> tracks r r'.
Proof.
  induction 1 as [r|r t r1 r2 E _ IH|r t r2 _ IH|r c r2 _ _ IH]; intro Hc.
  - auto.
  - eapply tr_trans; [eapply tr_lex; eauto|]. apply IH.
    pose proof (rs_evolves _ _ (rs_lex1 _ _ _ E)) as V. rewrite (ev_opt _ _ V). exact Hc.
  - eapply tr_trans; [apply tr_tok|]. apply IH. exact Hc.
  - eapply tr_trans; [apply tr_err|]. apply IH. rewrite (ev_opt _ _ (ev_err c r)). exact Hc.
Qed.

End Pos.
