(* ProofJsonA2.v - inversion of the tokenizer: literals, strings, numbers, tokens *)
From Coq Require String. Import String.StringSyntax.
From Verif Require Import Base Dec ModelJson SpecJson SpecJsonA ProofJson1 ProofJson2 ProofJson3 ProofJson4 ProofJson5 ProofJson8 ProofJsonA1.
Local Open Scope outcome_scope.
Local Open Scope N_scope.

Lemma err_some c r : rerr (rerror_set c r) <> None.
Proof. unfold rerror_set. destruct (rerr r) eqn:E; [now rewrite E|discriminate]. Qed.

(* ---- literals ---- *)
Lemma literal_loop_inv o b t l : ~ In 255 l -> forall s r rest r1, R o s b t r -> literal_loop l r = (rest, r1) ->
  rest = [] -> exists s', s = l ++ s' /\ R o s' b t r1.
Proof.
  induction l as [|x l IH]; intros N s r rest r1 H E Er; cbn [literal_loop] in E.
  - injection E as <- <-. exists s. auto.
  - rewrite (R_ok _ _ _ _ _ H) in E. destruct (popc r) as [c r2] eqn:Ep. destruct (c =? x) eqn:Ex.
    + apply N.eqb_eq in Ex. subst c.
      destruct (pop_inv _ _ _ _ _ _ _ (R_Q _ _ _ _ _ H) Ep) as [(s' & -> & H1)|(_ & -> & _)]; [|exfalso; apply N; now left].
      destruct (IH (fun X => N (or_intror X)) _ _ _ _ H1 E Er) as (s2 & -> & H2). exists s2. auto.
    + injection E as <- <-. discriminate.
Qed.
Lemma read_literal_inv o b t l s r : ~ In 255 l -> R o s b t r ->
  (exists s', s = l ++ s' /\ R o s' b t (read_literal l r)) \/ rerr (read_literal l r) <> None.
Proof.
  intros N H. unfold read_literal. destruct (literal_loop l r) as [rest r1] eqn:E. destruct rest as [|x rest].
  - left. eapply literal_loop_inv; eauto.
  - right. apply err_some.
Qed.

(* ---- strings ---- *)
Lemma hex_loop_stop n code r : rok r = false -> snd (hex_loop n code r) = r.
Proof. destruct n; cbn [hex_loop]; [auto|]. now intros ->. Qed.
Lemma hex_step o s b t n code r : R o s b t r -> rok (snd (hex_loop (S n) code r)) = true ->
  exists c v s' r1, s = c :: s' /\ hex_digit c v /\ R o s' b t r1 /\ rok (snd (hex_loop n (N.lor (N.shiftl code 4) v) r1)) = true.
Proof.
  intros H E. cbn [hex_loop] in E. rewrite (R_ok _ _ _ _ _ H) in E. destruct (popc r) as [c r1] eqn:Ep.
  destruct (hexval c) as [v|] eqn:Ev.
  - destruct (pop_inv _ _ _ _ _ _ _ (R_Q _ _ _ _ _ H) Ep) as [(s' & -> & H1)|(_ & -> & _)].
    + exists c, v, s', r1. repeat split; auto. now apply hexval_iff.
    + discriminate Ev.
  - rewrite hex_loop_stop, err_not_ok in E by apply err_not_ok. discriminate.
Qed.
Lemma raw_hex_stop n r : rok r = false -> raw_hex_loop n r = r.
Proof. destruct n; cbn [raw_hex_loop]; [auto|]. now intros ->. Qed.
Lemma raw_hex_step o s b t n r : R o s b t r -> rok (raw_hex_loop (S n) r) = true ->
  exists c v s' r1, s = c :: s' /\ hex_digit c v /\ R o s' (b ++ [c]) t r1 /\ rok (raw_hex_loop n r1) = true.
Proof.
  intros H E. cbn [raw_hex_loop] in E. rewrite (R_ok _ _ _ _ _ H) in E. destruct (popc r) as [c r1] eqn:Ep.
  destruct (hexval c) as [v|] eqn:Ev.
  - destruct (pop_inv _ _ _ _ _ _ _ (R_Q _ _ _ _ _ H) Ep) as [(s' & -> & H1)|(_ & -> & _)].
    + exists c, v, s', (save c r1). repeat split; auto; [now apply hexval_iff|now apply R_save].
    + discriminate Ev.
  - rewrite raw_hex_stop, err_not_ok in E by apply err_not_ok. discriminate.
Qed.
Lemma read_unicode_inv o s b t r r' : R o s b t r -> read_unicode r = Ok r' -> rok r' = true ->
  exists a b2 c e s' v, s = a :: b2 :: c :: e :: s' /\ spell1 (dia o) v [92; 117; a; b2; c; e] /\ R o s' (b ++ v) t r'.
Proof.
  intros H E Hok. unfold read_unicode in E. rewrite (R_opt _ _ _ _ _ H) in E. destruct (o_unescape o) eqn:Eo.
  - unfold unescape_unicode in E. destruct (hex_loop 4 0 r) as [code r1] eqn:Eh.
    assert (Hr1 : rok r1 = true).
    { destruct (rok r1) eqn:X; [reflexivity|]. injection E as <-. congruence. }
    assert (X : rok (snd (hex_loop 4 0 r)) = true) by now rewrite Eh.
    destruct (hex_step _ _ _ _ _ _ _ H X) as (a & va & s1 & r2 & -> & Ha & H2 & X2).
    destruct (hex_step _ _ _ _ _ _ _ H2 X2) as (b2 & vb & s2 & r3 & -> & Hb & H3 & X3).
    destruct (hex_step _ _ _ _ _ _ _ H3 X3) as (c & vc & s3 & r4 & -> & Hc & H4 & X4).
    destruct (hex_step _ _ _ _ _ _ _ H4 X4) as (e & ve & s4 & r5 & -> & He & H5 & X5).
    destruct (hex_loop_ok o a b2 c e va vb vc ve s4 b t r Ha Hb Hc He H) as (r6 & E6 & H6).
    rewrite Eh in E6. injection E6 as -> ->. rewrite Hr1 in E.
    assert (L : va * 4096 + vb * 256 + vc * 16 + ve < 0x10000).
    { apply hex_lt in Ha, Hb, Hc, He. lia. }
    destruct (save_code_ok o _ s4 b t r6 L H6) as (r7 & E7 & H7). rewrite E in E7. injection E7 as <-.
    exists a, b2, c, e, s4, (utf8 (va * 4096 + vb * 256 + vc * 16 + ve)). repeat split; auto. now apply sp_u.
  - assert (X : r' = raw_hex_loop 4 (save 117 (save c_bslash r))) by congruence. clear E. subst r'.
    pose proof (R_save _ 117 _ _ _ _ (R_save _ c_bslash _ _ _ _ H)) as H1.
    destruct (raw_hex_step _ _ _ _ _ _ H1 Hok) as (a & va & s1 & r2 & -> & Ha & H2 & X2).
    destruct (raw_hex_step _ _ _ _ _ _ H2 X2) as (b2 & vb & s2 & r3 & -> & Hb & H3 & X3).
    destruct (raw_hex_step _ _ _ _ _ _ H3 X3) as (c & vc & s3 & r4 & -> & Hc & H4 & X4).
    destruct (raw_hex_step _ _ _ _ _ _ H4 X4) as (e & ve & s4 & r5 & -> & He & H5 & X5).
    pose proof (raw_hex_ok o a b2 c e va vb vc ve s4 _ t _ Ha Hb Hc He H1) as H6.
    exists a, b2, c, e, s4, [92; 117; a; b2; c; e]. split; [reflexivity|]. split; [eapply sp_u_raw; eauto|].
    rewrite <- !app_assoc in H6. exact H6.
Qed.

Lemma string_loop_stop fuel r r' : rok r = false -> string_loop fuel r = Ok r' -> rerr r' <> None.
Proof. destruct fuel; cbn [string_loop]; [discriminate|]. intros -> E. injection E as <-. apply err_some. Qed.

Lemma escape_inv e v o : escape_value e = Some v -> spell1 (dia o) [v] [92; e].
Proof.
  unfold escape_value. destruct ((e =? 34) || (e =? 47) || (e =? 92)) eqn:E1.
  - intro X. injection X as <-. rewrite !orb_true_iff, !N.eqb_eq in E1. destruct E1 as [[->| ->]| ->]; constructor.
  - destruct (e =? 98) eqn:E2; [|destruct (e =? 102) eqn:E3; [|destruct (e =? 110) eqn:E4; [|destruct (e =? 114) eqn:E5; [|destruct (e =? 116) eqn:E6; [|discriminate]]]]];
      intro X; injection X as <-;
      repeat match goal with H : (_ =? _) = true |- _ => apply N.eqb_eq in H; subst end; constructor.
Qed.

Lemma string_loop_inv o t : forall fuel s b r r', R o s b t r -> byte_string s -> string_loop fuel r = Ok r' ->
  (exists v x s', s = x ++ 34 :: s' /\ spells (dia o) v x /\ R o s' (b ++ v) t r') \/ rerr r' <> None.
Proof.
  induction fuel as [|f IH]; intros s b r r' H Hb E; [discriminate|]. cbn [string_loop] in E.
  rewrite (R_ok _ _ _ _ _ H) in E. destruct (popc r) as [c r1] eqn:Ep.
  destruct (pop_inv _ _ _ _ _ _ _ (R_Q _ _ _ _ _ H) Ep) as [(s' & -> & H1)|(_ & -> & En)].
  2:{ right. change (255 =? c_nl) with false in E. change (N.testbit 255 7) with true in E. cbn [andb] in E. cbn iota in E.
      destruct (o_validate (ropt r1)); [discriminate E|].
      change (255 =? c_quote) with false in E. change (255 =? c_bslash) with false in E. cbn iota in E.
      eapply string_loop_stop; [|exact E]. rewrite save_rok. now apply ended_not_ok. }
  inversion Hb as [|? ? Hc Hb']; subst. unfold is_byte in Hc.
  destruct (c =? c_nl) eqn:Enl; [right; eapply string_loop_stop; [|exact E]; apply err_not_ok|].
  apply N.eqb_neq in Enl. unfold c_nl in Enl. rewrite (R_opt _ _ _ _ _ H1) in E.
  assert (step : forall v x s2 r2, s' = x ++ s2 -> spell1 (dia o) v (c :: x) -> R o s2 (b ++ v) t r2 -> string_loop f r2 = Ok r' ->
            (exists v x s0, c :: s' = x ++ 34 :: s0 /\ spells (dia o) v x /\ R o s0 (b ++ v) t r') \/ rerr r' <> None).
  { intros v x s2 r2 -> Hs H2 E2.
    assert (Hb2 : byte_string s2) by (apply Forall_app in Hb' as (_ & X); exact X).
    destruct (IH _ _ _ _ H2 Hb2 E2) as [(v' & x' & s3 & -> & Hsp & H3)|X]; [left|now right].
    exists (v ++ v'), ((c :: x) ++ x'), s3. split; [cbn [app]; now rewrite <- app_assoc|].
    split; [now constructor|]. now rewrite app_assoc. }
  destruct (N.testbit c 7 && o_validate o) eqn:Eh.
  - apply andb_true_iff in Eh as (Et & Eo). rewrite testbit7 in Et by exact Hc.
    apply bind_Ok in E as (r2 & E2 & E). destruct (rok r2) eqn:Er2.
    + destruct (validate_inv o c s' b t r1 r2 H1 Hc Hb' E2 Er2) as (cs & s2 & -> & _ & Hm & H2).
      apply (step (c :: cs) cs s2 r2); auto. now apply sp_utf8.
    + right. eapply string_loop_stop; eauto.
  - destruct (c =? c_quote) eqn:Eq.
    + apply N.eqb_eq in Eq. subst c. injection E as <-. left. exists [], [], s'. split; [reflexivity|]. split; [constructor|].
      now rewrite app_nil_r.
    + apply N.eqb_neq in Eq. unfold c_quote in Eq. destruct (c =? c_bslash) eqn:Eb.
      * apply N.eqb_eq in Eb. subst c. unfold c_bslash in *. destruct (popc r1) as [e r2] eqn:Ep2.
        destruct (pop_inv _ _ _ _ _ _ _ (R_Q _ _ _ _ _ H1) Ep2) as [(s2 & -> & H2)|(_ & -> & En)].
        -- destruct (e =? 117) eqn:Eu.
           ++ apply N.eqb_eq in Eu. subst e. apply bind_Ok in E as (r3 & E3 & E). destruct (rok r3) eqn:Er3.
              ** destruct (read_unicode_inv _ _ _ _ _ _ H2 E3 Er3) as (a & b2 & c & e & s3 & v & -> & Hs & H3).
                 apply (step v [117; a; b2; c; e] s3 r3); auto.
              ** right. eapply string_loop_stop; eauto.
           ++ destruct (escape_value e) as [v|] eqn:Ev.
              ** apply (step [v] [e] s2 (save v r2)); auto; [now apply escape_inv|now apply R_save].
              ** injection E as <-. right. apply err_some.
        -- right. change (255 =? 117) with false in E. change (escape_value 255) with (@None byte) in E. cbn iota in E.
           injection E as <-. apply err_some.
      * apply N.eqb_neq in Eb. unfold c_bslash in Eb.
        apply (step [c] [] s' (save c r1)); auto; [|now apply R_save].
        destruct (N.ltb_spec c 128); [now apply sp_plain|].
        apply sp_high; [|lia]. cbn. rewrite testbit7 in Eh by exact Hc.
        apply andb_false_iff in Eh as [X|X]; [apply N.leb_gt in X; lia|exact X].
Qed.
Lemma read_string_inv o s b t r r' : R o s b t r -> byte_string s -> read_string r = Ok r' ->
  (exists v x s', s = x ++ 34 :: s' /\ spells (dia o) v x /\ R o s' v t r') \/ rerr r' <> None.
Proof. intros H Hb E. unfold read_string in E. apply (string_loop_inv o t _ _ [] _ _ (R_reset _ _ _ _ _ H) Hb E). Qed.

(* ---- numbers ---- *)
Definition Qe (o : ropts) (s b : str) (t : token) (r : reader) : Prop := Q o s b t r \/ (ended r /\ s = [] /\ rbuf r = b).

(* what a text does not start with *)
Definition nhead (P : N -> Prop) (s : str) : Prop := forall c s', s = c :: s' -> ~ P c.
Lemma nhead_nil P : nhead P []. Proof. intros c s' X. discriminate. Qed.
Lemma nhead_cons P c s : ~ P c -> nhead P (c :: s). Proof. intros H c' s' X. congruence. Qed.
Lemma split_digits : forall ds ds' t t', digits ds -> digits ds' -> nhead digit_char t -> nhead digit_char t' -> ds ++ t = ds' ++ t' -> ds = ds' /\ t = t'.
Proof.
  induction ds as [|a ds IH]; intros [|a' ds'] t t' D D' N N' E; cbn [app] in E.
  - auto.
  - subst t. inversion D'; subst. exfalso. eapply N; [reflexivity|assumption].
  - subst t'. inversion D; subst. exfalso. eapply N'; [reflexivity|assumption].
  - injection E as <- E. inversion D; inversion D'; subst. destruct (IH ds' t t') as (-> & ->); auto.
Qed.
Lemma sloppy_exp_head ex c s' : sloppy_exp ex -> ex = c :: s' -> c = 101 \/ c = 69.
Proof. intros [->|(e & sg & d2 & He & _ & _ & ->)] X; [discriminate|]. injection X as <- _. exact He. Qed.
Lemma frac_exp_head fr ex : sloppy_frac fr -> sloppy_exp ex -> nhead digit_char (fr ++ ex).
Proof.
  intros [->|(d1 & -> & _)] X c s' E Hd; cbn [app] in E.
  - unfold digit_char in Hd. destruct (sloppy_exp_head _ _ _ X E); lia.
  - injection E as <- <-. unfold digit_char in Hd. lia.
Qed.
(* the scanner's stopping conditions make what was read the longest number *)
Definition stops (ds fr ex s : str) : Prop :=
  nhead digit_char (fr ++ ex ++ s) /\
  (fr = [] -> nhead (fun c => c = 46) (ex ++ s)) /\ (fr <> [] -> nhead digit_char (ex ++ s)) /\
  (ex = [] -> nhead (fun c => c = 101 \/ c = 69) s) /\
  (ex <> [] -> nhead digit_char s /\ (forall e, ex = [e] -> nhead (fun c => c = 43 \/ c = 45) s)).
Lemma sloppy_cut x y : x <> [] -> sloppy_number (x ++ y) -> sloppy_number x.
Proof.
  intros Nx (c & ds & fr & ex & Hc & Hd & Hf & He & E).
  destruct x as [|c' x]; [congruence|]. cbn [app] in E. injection E as -> E.
  assert (Dg : forall a b, digits (a ++ b) -> digits a) by (intros a b H; apply Forall_app in H; tauto).
  apply app_eq_app in E as (l & [(-> & E)|(-> & E)]).
  2:{ exists c, x, [], []. rewrite !app_nil_r. repeat split; eauto; now left. }
  apply app_eq_app in E as (l2 & [(X0 & E)|(-> & E)]).
  1:{ subst fr. destruct Hf as [X|(d1 & X & Hd1)].
      - apply app_eq_nil in X as (-> & _). exists c, ds, [], []. rewrite !app_nil_r. repeat split; auto; now left.
      - exists c, ds, l, []. rewrite app_nil_r. repeat split; auto; [|now left].
        destruct l as [|a l]; [now left|]. cbn [app] in X. injection X as -> <-. right. exists l. split; [reflexivity|]. eauto. }
  exists c, ds, fr, l2. repeat split; auto.
  destruct He as [X|(e & sg & d2 & Hee & Hs & Hd2 & X)].
  - rewrite X in E. symmetry in E. apply app_eq_nil in E as (-> & _). now left.
  - rewrite E in X. clear E. destruct l2 as [|a l2]; [now left|]. cbn [app] in X. injection X as -> X.
    right. apply app_eq_app in X as (l3 & [(-> & X)|(X & _)]).
    + exists e, sg, l3. repeat split; auto. subst d2. eauto.
    + exists e, l2, []. rewrite app_nil_r. repeat split; auto; [|constructor].
      destruct l2 as [|g l2]; [now left|]. destruct Hs as [->|[->| ->]]; [discriminate X| |]; injection X as <- X; symmetry in X; apply app_eq_nil in X as (-> & _); auto.
Qed.
Lemma stops_longest c ds fr ex s : c = 45 \/ digit_char c -> digits ds -> sloppy_frac fr -> sloppy_exp ex -> stops ds fr ex s -> longest (c :: ds ++ fr ++ ex) s.
Proof.
  intros Hc Hd Hf He (S1 & S2 & S3 & S4 & S5) y z -> Sl. destruct y as [|g y]; [reflexivity|exfalso].
  assert (Sl1 : sloppy_number ((c :: ds ++ fr ++ ex) ++ [g])).
  { apply (sloppy_cut _ y); [discriminate|]. rewrite <- app_assoc. exact Sl. }
  clear Sl. destruct Sl1 as (c' & ds' & fr' & ex' & Hc' & Hd' & Hf' & He' & E). cbn [app] in E. injection E as <- E.
  rewrite <- !app_assoc in E.
  assert (Hs : forall P t, nhead P (t ++ (g :: y) ++ z) -> nhead P (t ++ [g])).
  { intros P [|a t] H a' s' X; cbn [app] in X; injection X as <- _; (eapply H; reflexivity). }
  apply split_digits in E as (-> & E); auto; [| |now apply frac_exp_head].
  2:{ rewrite app_assoc. apply Hs. now rewrite <- app_assoc. }
  assert (E2 : ex ++ [g] = ex').
  { destruct Hf as [->|(d1 & -> & Hd1)].
    - specialize (S2 eq_refl). apply Hs in S2. cbn [app] in E. destruct Hf' as [->|(d1' & -> & _)]; [exact E|].
      exfalso. eapply S2; [exact E|reflexivity].
    - assert (S3' : nhead digit_char (ex ++ [g])) by (apply Hs; apply S3; discriminate).
      destruct Hf' as [->|(d1' & -> & Hd1')].
      + exfalso. cbn [app] in E. symmetry in E. destruct (sloppy_exp_head _ _ _ He' E); discriminate.
      + cbn [app] in E. injection E as E. apply split_digits in E as (_ & E); auto.
        apply (frac_exp_head [] ex'); [now left|exact He']. }
  clear E S1 S2 S3. subst ex'. destruct He as [->|(e & sg & d2 & Hee & Hsg & Hd2 & ->)].
  - cbn [app] in He'. eapply (S4 eq_refl); [reflexivity|]. eapply sloppy_exp_head; [exact He'|reflexivity].
  - destruct (S5 ltac:(discriminate)) as (S6 & S7). cbn [app] in He'.
    assert (Ng : ~ digit_char g) by (eapply S6; reflexivity).
    destruct He' as [X|(e' & sg' & d2' & _ & Hsg' & Hd2' & X)]; [discriminate|]. injection X as <- X.
    assert (Lst : forall l : str, digits (l ++ [g]) -> False).
    { intros l Y. apply Forall_app in Y as (_ & Y). inversion Y; subst. contradiction. }
    assert (Sgn : sg = sg' \/ (sg = [] /\ d2 = [] /\ (g = 43 \/ g = 45))).
    { destruct Hsg as [->|[->| ->]], Hsg' as [->|[->| ->]]; auto; cbn [app] in X.
      1,2: destruct d2 as [|a d2]; cbn [app] in X; injection X as Xa Xb; [subst g; right; auto|inversion Hd2 as [|? ? Y _]; subst; unfold digit_char in Y; lia].
      1,3: destruct d2' as [|a d2']; [discriminate|]; injection X as <- X; inversion Hd2' as [|? ? Y _]; subst; unfold digit_char in Y; lia.
      all: discriminate X. }
    destruct Sgn as [->|(-> & -> & Hg)].
    + rewrite <- app_assoc in X. apply app_inv_head in X. subst d2'. now apply (Lst d2).
    + eapply (S7 e eq_refl); [reflexivity|exact Hg].
Qed.
Lemma longest_nil x : longest x []. Proof. intros y z E _. symmetry in E. now apply app_eq_nil in E. Qed.

Lemma digits_loop_inv o t : forall fuel s b r r', Qe o s b t r -> digits_loop fuel r = Ok r' ->
  exists ds s', s = ds ++ s' /\ digits ds /\ Qe o s' (b ++ ds) t r' /\ nhead digit_char s'.
Proof.
  induction fuel as [|f IH]; intros s b r r' H E; [discriminate|]. cbn [digits_loop] in E.
  destruct H as [H|(En & -> & Hbf)].
  2:{ rewrite (ended_not_ok _ En) in E. injection E as <-. exists [], []. split; [reflexivity|]. split; [constructor|]. split; [right; now rewrite app_nil_r|apply nhead_nil]. }
  rewrite (Q_ok _ _ _ _ _ H) in E. destruct (peekc r) as [c r1] eqn:Ek.
  destruct (peek_inv _ _ _ _ _ _ _ H Ek) as [(s' & -> & ->)|(-> & -> & X)].
  - destruct (isdigit c) eqn:Ed.
    + destruct (popc r) as [d r2] eqn:Ep.
      destruct (pop_inv _ _ _ _ _ _ _ H Ep) as [(s2 & Es & H2)|(X & _)]; [|discriminate X]. injection Es as <- <-.
      destruct (IH s' (b ++ [c]) (save c r2) r') as (ds & s3 & -> & Hd & H3 & Nh).
      { left. apply R_Q. now apply R_save. } { exact E. }
      exists (c :: ds), s3. split; [reflexivity|]. split; [constructor; [now apply isdigit_iff|exact Hd]|].
      split; [now rewrite <- app_assoc in H3|exact Nh].
    + injection E as <-. exists [], (c :: s'). split; [reflexivity|]. split; [constructor|]. split; [left; now rewrite app_nil_r|].
      apply nhead_cons. intro Y. apply isdigit_iff in Y. congruence.
  - change (isdigit 255) with false in E. cbn iota in E. injection E as <-. exists [], []. split; [reflexivity|]. split; [constructor|].
    split; [|apply nhead_nil]. rewrite app_nil_r. destruct X as [(X & _)|(X & Xb)]; [now left|right; auto].
Qed.
Lemma read_digits_inv o t s b r r' : Qe o s b t r -> read_digits r = Ok r' ->
  exists ds s', s = ds ++ s' /\ digits ds /\ Qe o s' (b ++ ds) t r' /\ nhead digit_char s'.
Proof. apply digits_loop_inv. Qed.

Lemma read_char_inv o t s b r x f r' : x <> 255 -> Qe o s b t r -> read_char x r = (f, r') ->
  (f = true /\ exists s', s = x :: s' /\ Qe o s' (b ++ [x]) t r') \/ (f = false /\ Qe o s b t r' /\ nhead (fun c => c = x) s).
Proof.
  intros N H E. unfold read_char in E. destruct H as [H|(En & -> & Hbf)].
  2:{ rewrite (ended_not_ok _ En) in E. injection E as <- <-. right. split; [reflexivity|split; [right; auto|apply nhead_nil]]. }
  rewrite (Q_ok _ _ _ _ _ H) in E. destruct (peekc r) as [c r1] eqn:Ek.
  destruct (peek_inv _ _ _ _ _ _ _ H Ek) as [(s' & -> & ->)|(-> & -> & X)].
  - destruct (c =? x) eqn:Ec.
    + apply N.eqb_eq in Ec. subst c. destruct (popc r) as [d r2] eqn:Ep.
      destruct (pop_inv _ _ _ _ _ _ _ H Ep) as [(s2 & Es & H2)|(X & _)]; [|discriminate X]. injection Es as <- <-.
      injection E as <- <-. left. split; [reflexivity|]. exists s'. split; [reflexivity|]. left. apply R_Q. now apply R_save.
    + injection E as <- <-. right. split; [reflexivity|split; [now left|]]. apply nhead_cons. now apply N.eqb_neq.
  - replace (255 =? x) with false in E by (symmetry; apply N.eqb_neq; congruence). injection E as <- <-.
    right. split; [reflexivity|]. split; [|apply nhead_nil]. destruct X as [(X & _)|(X & Xb)]; [now left|right; auto].
Qed.
Lemma read_chars_inv o t s b r x y f r' : x <> 255 -> y <> 255 -> Qe o s b t r -> read_chars x y r = (f, r') ->
  (f = true /\ exists c s', (c = x \/ c = y) /\ s = c :: s' /\ Qe o s' (b ++ [c]) t r') \/ (f = false /\ Qe o s b t r' /\ nhead (fun c => c = x \/ c = y) s).
Proof.
  intros N1 N2 H E. unfold read_chars in E. destruct H as [H|(En & -> & Hbf)].
  2:{ rewrite (ended_not_ok _ En) in E. injection E as <- <-. right. split; [reflexivity|split; [right; auto|apply nhead_nil]]. }
  rewrite (Q_ok _ _ _ _ _ H) in E. destruct (peekc r) as [c r1] eqn:Ek.
  destruct (peek_inv _ _ _ _ _ _ _ H Ek) as [(s' & -> & ->)|(-> & -> & X)].
  - rewrite Ek in E. destruct (popc r) as [d r2] eqn:Ep.
    destruct (pop_inv _ _ _ _ _ _ _ H Ep) as [(s2 & Es & H2)|(X & _)]; [|discriminate X]. injection Es as <- <-.
    destruct (c =? x) eqn:Ec; [|destruct (c =? y) eqn:Ec2].
    + apply N.eqb_eq in Ec. injection E as <- <-. left. split; [reflexivity|]. exists c, s'. repeat split; auto. left. apply R_Q. now apply R_save.
    + apply N.eqb_eq in Ec2. injection E as <- <-. left. split; [reflexivity|]. exists c, s'. repeat split; auto. left. apply R_Q. now apply R_save.
    + injection E as <- <-. right. split; [reflexivity|split; [now left|]]. apply nhead_cons. apply N.eqb_neq in Ec, Ec2. tauto.
  - replace (255 =? x) with false in E by (symmetry; apply N.eqb_neq; congruence).
    destruct (peekc r1) as [c2 r2] eqn:Ek2.
    assert (Y : c2 = 255 /\ Qe o [] b t r2).
    { destruct X as [(X & Xe)|X].
      - destruct (peek_inv _ _ _ _ _ _ _ X Ek2) as [(s' & Es & _)|(_ & -> & Y)]; [discriminate Es|]. split; [reflexivity|].
        destruct Y as [(Y & _)|(Y & Yb)]; [now left|right; auto].
      - destruct X as ((X1 & X2) & Xb). unfold peekc in Ek2. rewrite X2, orb_true_r in Ek2. injection Ek2 as <- <-. split; [reflexivity|].
        right. split; [|split; [reflexivity|exact Xb]]. split; auto. }
    destruct Y as (-> & Y). replace (255 =? y) with false in E by (symmetry; apply N.eqb_neq; congruence).
    injection E as <- <-. right. split; [reflexivity|]. split; [exact Y|apply nhead_nil].
Qed.

Lemma digits_open o t : forall fuel s b r r', R o s b t r -> digits_loop fuel r = Ok r' -> ~ ended r'.
Proof.
  induction fuel as [|f IH]; intros s b r r' H E En; [discriminate|]. cbn [digits_loop] in E. rewrite (R_ok _ _ _ _ _ H) in E.
  destruct s as [|c s].
  - destruct H as (p & l & ->). cbn in E. injection E as <-. destruct En as (_ & En). discriminate En.
  - rewrite (R_peek _ _ _ _ _ _ H) in E. destruct (isdigit c).
    + destruct (R_pop _ _ _ _ _ _ H) as (r2 & Ep & H2). rewrite Ep in E. apply (R_save o c) in H2. exact (IH _ _ _ _ H2 E En).
    + injection E as <-. destruct H as (p & l & ->). destruct En as (_ & En). discriminate En.
Qed.
Lemma read_chars_R o t s b r x y r' : x <> 255 -> y <> 255 -> Qe o s b t r -> read_chars x y r = (true, r') ->
  exists s' b', R o s' b' t r'.
Proof.
  intros N1 N2 H E. destruct (read_chars_inv o t s b r x y true r' N1 N2 H E) as [(_ & c & s' & _ & -> & _)|(X & _)]; [|discriminate X].
  destruct H as [H|(_ & X & _)]; [|discriminate X]. apply Q_R in H. unfold read_chars in E. rewrite (R_ok _ _ _ _ _ H), (R_peek _ _ _ _ _ _ H) in E.
  rewrite (R_peek _ _ _ _ _ _ H) in E. destruct (R_pop _ _ _ _ _ _ H) as (r2 & Ep & H2). rewrite Ep in E. apply (R_save o c) in H2.
  destruct (c =? x); [|destruct (c =? y)]; inversion E; subst; eauto.
Qed.
Lemma read_chars_stop o t b r x y r' : x <> 255 -> y <> 255 -> Qe o [] b t r -> read_chars x y r = (false, r') -> ended r'.
Proof.
  intros N1 N2 H E. unfold read_chars in E. destruct H as [(e & p & l & -> & He)|(En & _ & _)].
  - cbn [rok rerr rfail negb] in E. apply N.eqb_neq in N1, N2. rewrite N.eqb_sym in N1. rewrite N.eqb_sym in N2.
    unfold peekc in E. cbn [reof rfail rin orb] in E. destruct e; cbn [orb reof rfail rin] in E; unfold c_eof in E; rewrite N1 in E; cbn [reof rfail orb] in E; rewrite N2 in E;
      injection E as <-; split; reflexivity.
  - rewrite (ended_not_ok _ En) in E. injection E as <-. exact En.
Qed.
Lemma read_digits_ended r r' : ended r -> read_digits r = Ok r' -> ended r'.
Proof. intros En E. unfold read_digits, rfuel in E. cbn [digits_loop] in E. rewrite (ended_not_ok _ En) in E. injection E as <-. exact En. Qed.
Lemma read_number_inv o s b t r c tk r' : Q o s b t r -> c = 45 \/ digit_char c -> read_number c r = Ok (tk, r') ->
  exists ds fr ex s', s = ds ++ fr ++ ex ++ s' /\ digits ds /\ sloppy_frac fr /\ sloppy_exp ex /\
    Qe o s' (c :: ds ++ fr ++ ex) t r' /\
    ((tk = TInt /\ fr = [] /\ ex = []) \/ (tk = TFloat /\ (fr <> [] \/ ex <> []))) /\ longest (c :: ds ++ fr ++ ex) s' /\
    (ended r' -> ex = [] \/ ex = [101] \/ ex = [69]) /\ (s' = [] -> ex = [] \/ ex = [101] \/ ex = [69] -> ended r').
Proof.
  intros H Hc E. unfold read_number in E. apply bind_Ok in E as (r1 & E1 & E).
  assert (H0 : Qe o s [c] t (save c (reset_buf r))).
  { left. apply (Q_save o c s [] t (reset_buf r)). destruct H as (e & p & l & -> & H). now exists e, p, l. }
  destruct (read_digits_inv _ _ _ _ _ _ H0 E1) as (ds & s1 & -> & Hd & H1 & Nd).
  destruct (read_char 46 r1) as [dot r2] eqn:E2.
  assert (F : exists fr s2 r3, (if dot then read_digits r2 else Ok r2) = Ok r3 /\ s1 = fr ++ s2 /\ sloppy_frac fr /\
             Qe o s2 ([c] ++ ds ++ fr) t r3 /\ (dot = false -> fr = []) /\ (dot = true -> fr <> []) /\
             (fr = [] -> nhead (fun c => c = 46) s2) /\ (fr <> [] -> nhead digit_char s2)).
  { destruct (read_char_inv o t _ _ _ 46 _ _ ltac:(discriminate) H1 E2) as [(-> & s2 & -> & H2)|(-> & H2 & Nh)].
    - apply bind_Ok in E as (r3 & E3 & E). destruct (read_digits_inv _ _ _ _ _ _ H2 E3) as (d2 & s3 & -> & Hd2 & H3 & Nh).
      exists (46 :: d2), s3, r3. split; [exact E3|]. split; [reflexivity|]. split; [right; eauto|]. split; [rewrite <- !app_assoc in H3; exact H3|].
      split; [discriminate|]. split; [discriminate|]. split; [discriminate|auto].
    - exists [], s1, r2. split; [reflexivity|]. split; [reflexivity|]. split; [now left|]. split; [now rewrite app_nil_r|].
      split; [auto|]. split; [discriminate|]. split; [auto|congruence]. }
  destruct F as (fr & s2 & r3 & E3 & -> & Hf & H3 & D1 & D2 & F1 & F2). rewrite E3 in E. cbn [bind] in E.
  destruct (read_chars 101 69 r3) as [exp r4] eqn:E4.
  assert (G : exists ex s3 r5, (if exp then read_digits (snd (read_chars 43 45 r4)) else Ok r4) = Ok r5 /\ s2 = ex ++ s3 /\ sloppy_exp ex /\
             Qe o s3 ([c] ++ ds ++ fr ++ ex) t r5 /\ (exp = false -> ex = []) /\ (exp = true -> ex <> []) /\
             (ex = [] -> nhead (fun c => c = 101 \/ c = 69) s3) /\
             (ex <> [] -> nhead digit_char s3 /\ (forall e, ex = [e] -> nhead (fun c => c = 43 \/ c = 45) s3)) /\
             (ended r5 -> ex = [] \/ ex = [101] \/ ex = [69]) /\ (s3 = [] -> ex = [] \/ ex = [101] \/ ex = [69] -> ended r5)).
  { destruct (read_chars_inv o t _ _ _ 101 69 _ _ ltac:(discriminate) ltac:(discriminate) H3 E4) as [(-> & e & s3 & He & -> & H4)|(-> & H4 & Nh)].
    - apply bind_Ok in E as (r6 & E6 & E). destruct (read_chars 43 45 r4) as [sgn r5] eqn:E5. cbn [snd] in E6.
      assert (K : exists sg s4, (sg = [] \/ sg = [43] \/ sg = [45]) /\ s3 = sg ++ s4 /\ Qe o s4 ((([c] ++ ds ++ fr) ++ [e]) ++ sg) t r5 /\ (sg = [] -> nhead (fun c => c = 43 \/ c = 45) s4) /\
             (sg <> [] -> exists s' b', R o s' b' t r5) /\ (sg = [] -> s4 = [] -> ended r5)).
      { destruct (read_chars_inv o t _ _ _ 43 45 _ _ ltac:(discriminate) ltac:(discriminate) H4 E5) as [(-> & g & s4 & Hg & -> & H5)|(-> & H5 & Nh)].
        - exists [g], s4. split; [destruct Hg as [->| ->]; auto|]. split; [reflexivity|]. split; [exact H5|]. split; [discriminate|]. split; [|discriminate]. intros _. exact (read_chars_R _ _ _ _ _ 43 45 _ ltac:(discriminate) ltac:(discriminate) H4 E5).
        - exists [], s3. rewrite app_nil_r. split; [auto|]. split; [reflexivity|]. split; [auto|]. split; [auto|]. split; [congruence|].
          intros _ ->. exact (read_chars_stop o t _ _ 43 45 _ ltac:(discriminate) ltac:(discriminate) H4 E5). }
      destruct K as (sg & s4 & Hg & -> & H5 & Nsg & Rsg & Esg). destruct (read_digits_inv _ _ _ _ _ _ H5 E6) as (d2 & s5 & -> & Hd2 & H6 & Nh).
      exists (e :: sg ++ d2), s5, r6. split; [exact E6|]. split; [cbn [app]; now rewrite <- !app_assoc|].
      split; [right; exists e, sg, d2; auto|]. split; [rewrite <- !app_assoc in H6; exact H6|].
      split; [discriminate|]. split; [discriminate|]. split; [discriminate|]. split.
      + intros _. split; [exact Nh|]. intros e' X. injection X as _ X. apply app_eq_nil in X as (-> & ->). now apply Nsg.
      + split; [|intros -> X; destruct sg as [|g sg]; [|exfalso; destruct X as [X|[X|X]]; discriminate X];
          destruct d2 as [|d d2]; [|exfalso; destruct X as [X|[X|X]]; discriminate X];
          exact (read_digits_ended _ _ (Esg eq_refl eq_refl) E6)].
        intro En. assert (Z : sg ++ d2 = []).
        { destruct sg as [|g sg].
          - cbn [app] in *. destruct d2 as [|d d2]; [reflexivity|]. destruct H5 as [H5|(_ & X & _)]; [|discriminate X].
            apply Q_R in H5. destruct (digits_open _ _ _ _ _ _ _ H5 E6 En).
          - destruct (Rsg ltac:(discriminate)) as (s' & b' & HR). destruct (digits_open _ _ _ _ _ _ _ HR E6 En). }
        rewrite Z. destruct He as [->| ->]; auto.
    - exists [], s2, r4. split; [reflexivity|]. split; [reflexivity|]. split; [now left|]. split; [now rewrite app_nil_r|].
      split; [auto|]. split; [discriminate|]. split; [auto|]. split; [congruence|]. split; [auto|].
      intros -> _. exact (read_chars_stop o t _ _ 101 69 _ ltac:(discriminate) ltac:(discriminate) H3 E4). }
  destruct G as (ex & s3 & r5 & E5 & -> & He & H5 & D3 & D4 & F3 & F4 & Hopen). rewrite E5 in E. cbn [bind] in E. injection E as <- <-.
  exists ds, fr, ex, s3. split; [reflexivity|]. split; [exact Hd|]. split; [exact Hf|]. split; [exact He|]. split; [exact H5|]. split.
  - destruct dot; cbn [orb]; [right; split; auto|]. destruct exp; [right; split; auto|left]. auto.
  - split; [|exact Hopen]. apply stops_longest; auto. repeat split; auto; now apply F4.
Qed.
