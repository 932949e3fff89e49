(* PropJsonCut.v - C39: truncated documents. *)
From Coq Require String. Import String.StringSyntax.
From Verif Require Import Base Dec ModelJson ModelJsonW ModelJsonT SpecJson SpecJsonT ProofJson1 ProofJson2 ProofJson3 ProofJson4 ProofJson5 ProofJson6 ProofJson7 ProofJson8 ProofJson9 ProofJson10 ProofJsonT1 ProofJsonT2 ProofJsonT3 ProofJsonT4 ProofJsonT5 ProofJsonP1 ProofJsonP2 PropJsonStr PropJsonTok PropJsonDoc.
Local Open Scope outcome_scope.

(* The start of a number: a digit or a minus, then characters numbers are made of. *)
Definition number_char (c : byte) : Prop := digit_char c \/ In c (lit "+-.eE").
Definition number_start (x : str) : Prop :=
  exists c x', x = c :: x' /\ (digit_char c \/ c = 45%N) /\ Forall number_char x'.

(* The incomplete texts the parser does not report: an opening bracket alone, or an
   opening square bracket and (a part of) a number. *)
Definition cut_at_start (d : dialect) (p : str) : Prop :=
  exists w1 b w2, p = w1 ++ b :: w2 /\ blank d w1 /\
    (((b = 91%N \/ b = 123%N) /\ blank_end d w2) \/
     (b = 91%N /\ exists w x, w2 = w ++ x /\ blank d w /\ number_start x)).

(* the first character of a token that is not a number *)
Lemma tok_first d t x : tok_text d t x -> ~ is_num t ->
  exists c x', x = c :: x' /\ (c =? 45)%N || isdigit c = false /\ isspace c = false /\ c <> c_slash.
Proof.
  intros H Hn. destruct H; try (eexists _, _; split; [reflexivity|]; repeat split; (reflexivity || discriminate)); destruct Hn; exact I.
Qed.
Lemma toks_first j : ~ is_number j -> exists t ts, toks j = t :: ts /\ ~ is_num t.
Proof. destruct j; cbn; intro H; try (eexists _, _; split; [reflexivity|]; auto); destruct H; exact I. Qed.

Lemma lex_open r t r' : lex_token r = Ok (t, r') -> t = TObjS \/ t = TArrS -> rok r = true ->
  exists c, (c = 123 \/ c = 91)%N /\ next_char (rfuel r) r = Ok (c, r') /\ rok r' = true.
Proof.
  unfold lex_token. intros H Ht K. rewrite K in H. cbn [negb] in H. apply bind_ok in H as ([c r1] & E & H).
  destruct (rok r1) eqn:Ek; cbn [negb] in H; [|injection H as <- <-; destruct Ht; discriminate].
  destruct (N.eqb_spec c 123) as [->|]; [injection H as <- <-; eauto|].
  destruct (N.eqb_spec c 125) as [->|]; [injection H as <- <-; destruct Ht; discriminate|].
  destruct (N.eqb_spec c 91) as [->|]; [injection H as <- <-; eauto|]. exfalso.
  repeat (match type of H with context [if (?x =? ?y)%N then Ok _ else _] => destruct (x =? y)%N; [injection H as <- <-; destruct Ht; discriminate|] end).
  destruct (c =? c_quote)%N; [apply bind_ok in H as (r2 & _ & H); injection H as <- <-; destruct Ht; discriminate|].
  destruct (_ || _); [apply number_soft in H; destruct Ht; subst; discriminate|]. injection H as <- <-; destruct Ht; discriminate.
Qed.
Lemma lex_num r t r' : lex_token r = Ok (t, r') -> t = TInt \/ t = TFloat ->
  exists c r1, (c =? 45)%N || isdigit c = true /\ next_char (rfuel r) r = Ok (c, r1) /\ rok r1 = true.
Proof.
  unfold lex_token. intros H Ht. destruct (rok r); cbn [negb] in H; [|injection H as <- <-; destruct Ht; discriminate].
  apply bind_ok in H as ([c r1] & E & H). exists c, r1.
  destruct (rok r1) eqn:Ek; cbn [negb] in H; [|injection H as <- <-; destruct Ht; discriminate].
  repeat (match type of H with context [if (?x =? ?y)%N then Ok _ else _] => destruct (x =? y)%N; [injection H as <- <-; destruct Ht; discriminate|] end).
  destruct (c =? c_quote)%N; [apply bind_ok in H as (r2 & _ & H); injection H as <- <-; destruct Ht; discriminate|].
  destruct (_ || _); [auto|]. injection H as <- <-; destruct Ht; discriminate.
Qed.
Lemma init_good o s : good (reader_init o s). Proof. split; reflexivity. Qed.

(* ---- numbers ---- *)
Definition nst (r : reader) : Prop := rerr r = None /\ (good r \/ (rin r = [] /\ reof r = true)).
Definition eats (r r' : reader) : Prop := exists x, rin r = x ++ rin r' /\ Forall number_char x.
Lemma eats_refl r : eats r r. Proof. exists []. auto. Qed.
Lemma eats_trans a b c : eats a b -> eats b c -> eats a c.
Proof. intros (x & E1 & F1) (y & E2 & F2). exists (x ++ y). split; [rewrite E1, E2, app_assoc; reflexivity|now apply Forall_app]. Qed.
Lemma peek_nst r c r' : peekc r = (c, r') -> nst r -> nst r' /\ rin r' = rin r /\ (c <> c_eof -> r' = r /\ exists s, rin r = c :: s).
Proof.
  intros H [E G]. revert H. unfold peekc. destruct G as [[G1 G2]|[I0 G1]].
  - rewrite G1, G2. cbn [orb]. destruct (rin r) as [|x s] eqn:Ei; intro H; injection H as <- <-.
    + split; [split; [exact E|right; auto]|]. split; [reflexivity|]. intro X. now destruct X.
    + split; [split; [exact E|left; split; auto]|]. split; [exact Ei|]. eauto.
  - rewrite G1. cbn [orb]. intro H; injection H as <- <-. split; [split; [exact E|right; cbn; auto]|]. split; [reflexivity|]. intro X. now destruct X.
Qed.
Lemma pop_nst r c s : nst r -> rin r = c :: s -> exists r', popc r = (c, r') /\ rin r' = s /\ nst r'.
Proof.
  intros [E [[G1 G2]|[I0 _]]] Ei; [|congruence]. unfold popc. rewrite G1, G2, Ei. cbn [orb]. eexists. split; [reflexivity|]. split; [reflexivity|].
  split; [exact E|left; split; reflexivity].
Qed.
Lemma digit_number c : isdigit c = true -> number_char c. Proof. intro H. left. now apply isdigit_iff. Qed.
Lemma digits_eats : forall fuel r r', digits_loop fuel r = Ok r' -> nst r -> nst r' /\ eats r r'.
Proof.
  induction fuel as [|f IH]; intros r r' H N; [discriminate|]. cbn [digits_loop] in H.
  destruct (rok r); [|injection H as <-; split; [exact N|apply eats_refl]].
  destruct (peekc r) as [c r1] eqn:Ep. destruct (peek_nst _ _ _ Ep N) as (N1 & I1 & P). destruct (isdigit c) eqn:Ed.
  - destruct P as (-> & s & Es); [intros ->; discriminate|]. destruct (pop_nst _ _ _ N Es) as (r2 & E2 & I2 & N2). rewrite E2 in H.
    apply IH in H as [N' Q]; [|exact N2]. split; [exact N'|]. apply (eats_trans _ r2); [|exact Q].
    exists [c]. rewrite Es, I2. split; [reflexivity|]. constructor; [now apply digit_number|constructor].
  - injection H as <-. split; [exact N1|]. exists []. rewrite I1. auto.
Qed.
Lemma char_eats a r b r' : read_char a r = (b, r') -> a <> c_eof -> number_char a -> nst r -> nst r' /\ eats r r'.
Proof.
  unfold read_char. intros H Ha Hn N. destruct (rok r); [|injection H as <- <-; split; [exact N|apply eats_refl]].
  destruct (peekc r) as [c r1] eqn:Ep. destruct (peek_nst _ _ _ Ep N) as (N1 & I1 & P). destruct (N.eqb_spec c a) as [->|].
  - destruct (P Ha) as (-> & s & Es). destruct (pop_nst _ _ _ N Es) as (r2 & E2 & I2 & N2). rewrite E2 in H. injection H as <- <-.
    split; [exact N2|]. exists [a]. cbn. rewrite Es, I2. auto.
  - injection H as <- <-. split; [exact N1|]. exists []. rewrite I1. auto.
Qed.
Lemma chars_eats a a2 r b r' : read_chars a a2 r = (b, r') -> a <> c_eof -> a2 <> c_eof -> number_char a -> number_char a2 -> nst r -> nst r' /\ eats r r'.
Proof.
  unfold read_chars. intros H Ha Ha2 Hn Hn2 N. destruct (rok r); [|injection H as <- <-; split; [exact N|apply eats_refl]].
  destruct (peekc r) as [c r1] eqn:Ep. destruct (peek_nst _ _ _ Ep N) as (N1 & I1 & P). destruct (N.eqb_spec c a) as [->|].
  - destruct (P Ha) as (-> & s & Es). destruct (pop_nst _ _ _ N Es) as (r2 & E2 & I2 & N2). rewrite E2 in H. injection H as <- <-.
    split; [exact N2|]. exists [a]. cbn. rewrite Es, I2. auto.
  - destruct (peekc r1) as [c2 r2] eqn:Ep2. destruct (peek_nst _ _ _ Ep2 N1) as (N2 & I2 & P2). destruct (N.eqb_spec c2 a2) as [->|].
    + destruct (P2 Ha2) as (-> & s & Es). destruct (pop_nst _ _ _ N1 Es) as (r3 & E3 & I3 & N3). rewrite E3 in H. injection H as <- <-.
      split; [exact N3|]. exists [a2]. cbn. rewrite <- I1, Es, I3. auto.
    + injection H as <- <-. split; [exact N2|]. exists []. rewrite I2, I1. auto.
Qed.
Lemma number_eats c r t r' : read_number c r = Ok (t, r') -> rerr r = None -> good r ->
  eats r r' /\ (rok r' = false -> rin r' = []).
Proof.
  unfold read_number. intros H E G. assert (N0 : nst (save c (reset_buf r))) by (split; [exact E|left; exact G]).
  apply bind_ok in H as (r1 & E1 & H). apply digits_eats in E1 as [N1 Q1]; [|exact N0].
  destruct (read_char 46%N r1) as [dot r2] eqn:E2. apply char_eats in E2 as [N2 Q2]; [|discriminate|right; cbn; tauto|exact N1].
  apply bind_ok in H as (r3 & E3 & H).
  assert (X3 : nst r3 /\ eats r2 r3). { destruct dot; [eapply digits_eats; eauto|injection E3 as <-; split; [exact N2|apply eats_refl]]. }
  destruct X3 as [N3 Q3]. destruct (read_chars 101%N 69%N r3) as [ex r4] eqn:E4.
  apply chars_eats in E4 as [N4 Q4]; [|discriminate|discriminate|right; cbn; tauto|right; cbn; tauto|exact N3].
  apply bind_ok in H as (r5 & E5 & H). injection H as _ <-.
  assert (X5 : nst r5 /\ eats r4 r5).
  { destruct ex; [|injection E5 as <-; split; [exact N4|apply eats_refl]]. destruct (read_chars 43%N 45%N r4) as [sg r6] eqn:E6.
    apply chars_eats in E6 as [N6 Q6]; [|discriminate|discriminate|right; cbn; tauto|right; cbn; tauto|exact N4].
    cbn [snd] in E5. apply digits_eats in E5 as [N5 Q5]; [|exact N6]. split; [exact N5|]. eapply eats_trans; eauto. }
  destruct X5 as [N5 Q5]. split.
  - change (eats (save c (reset_buf r)) r5). repeat (eapply eats_trans; [eassumption|]). apply eats_refl.
  - intro K. destruct N5 as [Z [G5|[I5 _]]]; [rewrite (good_rok _ Z G5) in K; discriminate|exact I5].
Qed.

(* ---- the text and the token found ---- *)
Lemma lex_num_inv r t r' : lex_token r = Ok (t, r') -> t = TInt \/ t = TFloat -> rerr r = None -> good r ->
  exists w x, rin r = w ++ x ++ rin r' /\ blank (dia (ropt r)) w /\ number_start x /\ (rok r' = false -> rin r' = []).
Proof.
  intros H Ht E G. pose proof H as H0. apply lex_num in H0 as (c & r1 & Hc & E1 & K1); [|exact Ht].
  destruct (rok_true _ K1) as [X1 F1].
  destruct (next_char_inv _ _ _ _ _ E1 X1 E G eq_refl) as [A _]. destruct (A K1) as (w & Iw & Hw & Hs).
  assert (Hcs : c <> c_slash) by (intros ->; discriminate).
  pose proof (next_char_good _ _ _ _ E1 K1 Hcs) as G1.
  unfold lex_token in H. rewrite (good_rok _ E G) in H. cbn [negb] in H. rewrite E1 in H. cbn [bind] in H. rewrite K1 in H. cbn [negb] in H.
  repeat (match type of H with context [if (?x =? ?y)%N then Ok _ else _] => destruct (x =? y)%N; [injection H as <- <-; destruct Ht; discriminate|] end).
  destruct (c =? c_quote)%N; [apply bind_ok in H as (r2 & _ & H); injection H as <- <-; destruct Ht; discriminate|].
  rewrite Hc in H. destruct (number_eats _ _ _ _ H X1 G1) as [(x & Ix & Fx) L].
  exists w, (c :: x). rewrite Iw, Ix. split; [reflexivity|]. split; [exact Hw|]. split; [|exact L].
  exists c, x. split; [reflexivity|]. split; [|exact Fx]. apply orb_true_iff in Hc as [Hc|Hc]; [right; now apply N.eqb_eq|left; now apply isdigit_iff].
Qed.
Lemma R_of r q : rerr r = None -> good r -> R (ropt r) (rin r ++ q) (rbuf r) (rtok r) (ext q r).
Proof. intros E [G1 G2]. exists (rpos r), (rline r). destruct r; cbn in *. subst. reflexivity. Qed.
(* the first character of what follows decides whether a number is found *)
Lemma first_char r q w c w' c' a b : rerr r = None -> good r ->
  rin r ++ q = w ++ c :: a -> rin r ++ q = w' ++ c' :: b -> blank (dia (ropt r)) w -> blank (dia (ropt r)) w' ->
  isspace c = false -> isspace c' = false -> c <> c_slash -> c' <> c_slash -> c = c' /\ a = b.
Proof.
  intros E G I1 I2 B1 B2 S1 S2 L1 L2. pose proof (R_of r q E G) as R0.
  set (n := S (length w + length w')).
  destruct (next_char_ok (ropt r) w B1 c a (rbuf r) (rtok r) (ext q r) n S1) as (ra & Ea & Ra); [congruence|congruence|now rewrite <- I1|unfold n; lia|].
  destruct (next_char_ok (ropt r) w' B2 c' b (rbuf r) (rtok r) (ext q r) n S2) as (rb & Eb & Rb); [congruence|congruence|now rewrite <- I2|unfold n; lia|].
  rewrite Ea in Eb. injection Eb as -> <-. split; [reflexivity|]. apply R_in in Ra, Rb. congruence.
Qed.
Lemma no_number r q t r' t1 ts rest : lex_token r = Ok (t, r') -> t = TInt \/ t = TFloat -> rerr r = None -> good r ->
  lexes (dia (ropt r)) (rin r ++ q) (t1 :: ts) rest -> ~ is_num t1 -> False.
Proof.
  intros H Ht E G Hx Hn. destruct (lex_num_inv _ _ _ H Ht E G) as (w & x & Ix & Hw & (c & x' & -> & Hc & _) & _).
  inversion Hx as [|w' t' y s' toks' rest' Hw' Hy _ _ Eq]; subst. destruct (tok_first _ _ _ Hy Hn) as (c' & y' & -> & Hc' & Hs' & Hsl).
  assert (Hs : isspace c = false /\ c <> c_slash /\ (c =? 45)%N || isdigit c = true).
  { destruct Hc as [Hc| ->]; [|repeat split; discriminate]. unfold digit_char in Hc. unfold isspace, c_slash. repeat split; [|lia|].
    - apply orb_false_iff. split; [apply N.eqb_neq; lia|]. apply andb_false_iff. right. apply N.leb_gt. lia.
    - apply orb_true_iff. right. now apply isdigit_iff. }
  destruct Hs as (Hs1 & Hs2 & Hs3).
  destruct (first_char r q w c w' c' (x' ++ rin r' ++ q) (y' ++ s') E G) as [-> _]; auto.
  all: try (rewrite Ix, <- !app_assoc; cbn; rewrite <- ?app_assoc; reflexivity). all: try congruence. all: try (now rewrite <- Eq).
Qed.

(* where the reader is after an opening bracket *)
Lemma open_inv r t r' : lex_token r = Ok (t, r') -> t = TObjS \/ t = TArrS -> rerr r = None -> good r ->
  exists w c, rin r = w ++ c :: rin r' /\ blank (dia (ropt r)) w /\ (t = TObjS -> c = 123%N) /\ (t = TArrS -> c = 91%N) /\
    (c = 91 \/ c = 123)%N /\ good r' /\ rerr r' = None /\ ropt r' = ropt r.
Proof.
  intros H Ht E G. pose proof H as H0. apply lex_open in H0 as (c & Hc & E1 & K1); [|exact Ht|now apply good_rok].
  destruct (rok_true _ K1) as [X1 F1].
  destruct (next_char_inv _ _ _ _ _ E1 X1 E G eq_refl) as [A _]. destruct (A K1) as (w & Iw & Hw & Hs).
  assert (G1 : good r') by (eapply next_char_good; eauto; destruct Hc; subst; discriminate).
  assert (O1 : ropt r' = ropt r).
  { destruct (next_char_fine (rfuel r) r (m_in_rfuel _)) as (c0 & r0 & F & V & _). rewrite E1 in F. injection F as <- <-. exact (ev_opt _ _ V). }
  exists w, c. repeat split; auto; try apply G1; [| |tauto].
  - intros ->. unfold lex_token in H. rewrite (good_rok _ E G) in H. cbn [negb] in H. rewrite E1 in H. cbn [bind] in H. rewrite K1 in H. cbn [negb] in H.
    destruct Hc as [->| ->]; [reflexivity|discriminate].
  - intros ->. unfold lex_token in H. rewrite (good_rok _ E G) in H. cbn [negb] in H. rewrite E1 in H. cbn [bind] in H. rewrite K1 in H. cbn [negb] in H.
    destruct Hc as [->| ->]; [discriminate|reflexivity].
Qed.
Lemma number_kind c r t r' : read_number c r = Ok (t, r') -> t = TInt \/ t = TFloat.
Proof.
  unfold read_number. intro H. apply bind_ok in H as (r1 & _ & H). destruct (read_char 46%N r1) as [dot r2].
  apply bind_ok in H as (r3 & _ & H). destruct (read_chars 101%N 69%N r3) as [ex r4]. apply bind_ok in H as (r5 & _ & H).
  injection H as <- <-. destruct (dot || ex); auto.
Qed.
(* a failed reader without error: the end, or a number at the end *)
Lemma dead_inv r t r' : lex_token r = Ok (t, r') -> rerr r = None -> good r -> rerr r' = None -> rok r' = false ->
  blank_end (dia (ropt r)) (rin r) \/ ((t = TInt \/ t = TFloat) /\ exists w x, rin r = w ++ x /\ blank (dia (ropt r)) w /\ number_start x).
Proof.
  intros H E G E' K. destruct (hard t) eqn:Eh. { pose proof (lex_good _ _ _ H E' Eh) as G'. rewrite (good_rok _ E' G') in K. discriminate. }
  pose proof H as H0. unfold lex_token in H0. rewrite (good_rok _ E G) in H0. cbn [negb] in H0. apply bind_ok in H0 as ([c r1] & E1 & H0).
  destruct (rok r1) eqn:K1; cbn [negb] in H0.
  - assert (Ht : t = TInt \/ t = TFloat).
    { repeat (match type of H0 with context [if (?x =? ?y)%N then Ok _ else _] => destruct (x =? y)%N; [injection H0 as <- <-; discriminate|] end).
      destruct (c =? c_quote)%N; [apply bind_ok in H0 as (r2 & _ & H0); injection H0 as <- <-; discriminate|].
      destruct (_ || _); [eapply number_kind; eauto|]. injection H0 as <- <-. destruct (err_some _ _ E'). }
    right. split; [exact Ht|]. destruct (lex_num_inv _ _ _ H Ht E G) as (w & x & Ix & Hw & Hx & L). exists w, x.
    rewrite (L K), app_nil_r in Ix. auto.
  - injection H0 as <- <-. left. destruct (next_char_inv _ _ _ _ _ E1 E' E G eq_refl) as [_ B]. now apply B.
Qed.

Lemma toks_obj_second l : exists t ts, toks (JObj l) = AObjS :: t :: ts /\ ~ is_num t.
Proof. destruct l as [|[k j] l]; cbn; [eexists _, _; split; [reflexivity|auto]|]. destruct l; cbn; eexists _, _; (split; [reflexivity|auto]). Qed.

Lemma cut_shape o p q b j : b = TObjS \/ b = TArrS -> cut_open b (reader_init o p) ->
  json_text (dia o) j (p ++ q) [] -> ~ is_number j -> cut_at_start (dia o) p.
Proof.
  intros Hb (r1 & t2 & r2 & E1 & E2 & K & E) Hx Hj. change (next_tok (reader_init o p)) with (lex_token (reader_init o p)) in E1. pose proof (lex_rtok _ _ _ E1) as T1. cbn in T1.
  destruct (open_inv _ _ _ E1 Hb eq_refl (init_good o p)) as (w & c & Iw & Hw & C1 & C2 & Hc & G1 & X1 & O1). cbn in Iw, Hw, O1.
  unfold peek_tok in E2. rewrite T1 in E2. cbn [same_type] in E2. apply bind_ok in E2 as ([t3 r3] & E3 & E2). injection E2 as <- <-.
  change (rok r3 = false) in K. change (rerr r3 = None) in E.
  exists w, c, (rin r1). split; [exact Iw|]. split; [exact Hw|].
  destruct (dead_inv _ _ _ E3 X1 G1 E K) as [B|[Ht (w2 & x & Ix & Hw2 & Hx2)]]; rewrite O1 in *; [auto|].
  right. destruct Hb as [->| ->].
  - exfalso. assert (exists t ts, toks j = t :: ts /\ ~ is_num t) as (ta & tsa & Ea & Ha) by now apply toks_first.
    unfold json_text in Hx. rewrite Ea in Hx. inversion Hx as [|w' t' y s' toks' rest' Hw' Hy _ Hl Eq]; subst.
    destruct (tok_first _ _ _ Hy Ha) as (c' & y' & -> & Hc' & Hs' & Hsl).
    rewrite (C1 eq_refl) in *.
    destruct (first_char (reader_init (ropt r1) (w ++ 123%N :: rin r1)) q w 123%N w' c' (rin r1 ++ q) (y' ++ s') eq_refl (init_good _ _)) as [<- Es];
      [cbn; now rewrite <- app_assoc|exact (eq_sym Eq)|exact Hw|exact Hw'|reflexivity|exact Hs'|discriminate|exact Hsl|].
    assert (Hta : ta = AObjS /\ y' = []).
    { clear - Hy. inversion Hy as [| | | | | | |z x Hi Ez Ex|x Hi Ez Ex| | |]; try (split; reflexivity); exfalso; clear - Hi.
      - inversion Hi. match goal with D : digits _ |- _ => inversion D end. unfold digit_char in *. lia.
      - inversion Hi as [sg ds fr ex Hs Hn Hd H1 H2 H3 Ex]. destruct Hs as [Hs|Hs]; rewrite Hs in Ex; [|discriminate Ex]. destruct ds as [|d ds]; [congruence|].
        cbn in Ex. injection Ex as -> _. inversion Hd as [|d l D Dl Ed]. unfold digit_char in D. lia. }
    destruct Hta as [-> ->]. destruct j; try discriminate. destruct (toks_obj_second l) as (tb & tsb & Eb & Hb2). rewrite Eb in Ea. injection Ea as <-.
    cbn [app] in Es. rewrite <- Es in Hl. eapply (no_number r1 q t3 r3); eauto.
  - split; [auto|]. exists w2, x. auto.
Qed.
Lemma num_first_not o p q j : num_first (reader_init o p) -> ~ is_number j -> json_text (dia o) j (p ++ q) [] -> False.
Proof.
  intros (t & r1 & E & Ht) Hj Hx. change (next_tok (reader_init o p)) with (lex_token (reader_init o p)) in E.
  destruct (toks_first j Hj) as (t1 & ts & Et & Hn). unfold json_text in Hx. rewrite Et in Hx.
  eapply (no_number (reader_init o p) q t r1); eauto. apply init_good.
Qed.

(* ==== C39 ==== *)
(* s is a text of the document j, not a number, which can be read into an object of type t
   in state v.  If a proper prefix p of s is parsed into the same object without an
   error being reported, then the cut is at the very start: p is an opening bracket
   alone, or an opening square bracket and part of a number. *)
Theorem c39_truncation_detected : forall (o : ropts) (e : env) (t : nat) (v v' : val) (j : json) (s p q : str),
  env_ok e -> (t < length e)%nat -> reads e t v j v' -> ~ is_number j -> json_text (dia o) j s [] ->
  s = p ++ q -> q <> [] ->
  forall fuel v'' r, parse_text fuel o e t v p = Ok (v'', r) -> rerr r = None -> cut_at_start (dia o) p.
Proof.
  intros o e t v v' j s p q He Ht Hr Hj Hx -> Hq fuel v'' r H E.
  destruct (parse_text_ok o e t v j v' (p ++ q) [] He Ht Hr (wt_more _ _ _ _ Hx)) as (n & Hn).
  destruct (Hn (n + fuel)%nat) as (r2 & P2 & _ & I2); [lia|].
  unfold parse_text in H, P2. apply bind_ok in H as (c1 & _ & H). apply bind_ok in H as ([[v1 m1] r1] & E1 & H). injection H as <- <-.
  apply bind_ok in P2 as (c2 & _ & P2). apply bind_ok in P2 as ([[v2 m2] r3] & E2 & P2). injection P2 as <- <-.
  pose proof (typed_of _ _ _ _ _ _ _ _ (J_none (reader_init o p) eq_refl) E1) as [_ O].
  destruct (O E) as [G|[N|[C|C]]].
  - exfalso. destruct (typed_sim q fuel (n + fuel) e t v (reader_init o p) ltac:(lia) _ _ E1) as [_ S].
    specialize (S (proj1 G)). change (ext q (reader_init o p)) with (reader_init o (p ++ q)) in S. rewrite E2 in S. injection S as _ _ S.
    subst r3. apply app_eq_nil in I2 as [_ I2]. exact (Hq I2).
  - exfalso. eapply num_first_not; eauto.
  - apply (cut_shape o p q TObjS j); auto.
  - apply (cut_shape o p q TArrS j); auto.
Qed.
Print Assumptions c39_truncation_detected.

(* The same for the texts the printer makes of a list, a map or an object: every proper prefix. *)
Theorem c39_printed_truncation : forall (wo : wopts) (o : ropts) (e : env) (t : nat) (v v0 : val),
  env_ok e -> no_void e -> (t < length e)%nat -> typed e t v -> restores e (w_compact wo) t v0 v ->
  names_ok (str_ok wo (dia o)) e -> all_strings (str_ok wo (dia o)) v ->
  (w_pretty wo = true -> (vdepth v <= 1024)%nat) ->
  match v with VList _ | VMap _ | VObj _ => True | _ => False end ->
  exists text steps, (forall fuel, (steps <= fuel)%nat -> print_text fuel wo e t v = Ok (text, false)) /\
    forall p q, text = p ++ q -> q <> [] ->
    forall fuel v'' r, parse_text fuel o e t v0 p = Ok (v'', r) -> rerr r = None -> cut_at_start (dia o) p.
Proof.
  intros wo o e t v v0 He Hv Ht Hty Hrs Hn Ha Hd Hk.
  destruct (typed_shows e (w_compact wo) He t v Hty) as (j & Hsh & Hst & Hde).
  destruct (print_text_ok wo (dia o) e t v j) as (x & Hx & n1 & Hp); auto. { intro H. specialize (Hd H). lia. }
  destruct (proj1 (shows_reads e (w_compact wo) He) _ _ _ Hsh Hty v0 Hrs) as [Hre _].
  assert (Hj : ~ is_number j) by (inversion Hsh; subst; cbn in *; tauto).
  exists x, n1. split; [exact Hp|]. intros p q Hpq Hq fuel v'' r H E. inversion Hx as [? ? Hx'|]; [|contradiction]. subst.
  eapply c39_truncation_detected; eauto.
Qed.
Print Assumptions c39_printed_truncation.

(* What is not reported: the text ends after the opening bracket, or in the first
   element of an array of numbers; the target is left as it was. *)
Theorem c39_refuted :
  let e := [DList 1; DInt true] in
  let quiet (t : nat) (v : val) (p : str) :=
    exists r, parse_text 10 ropts_default e t v p = Ok (v, r) /\ rerr r = None in
  quiet 0 (VList []) (lit "[") /\ quiet 0 (VList [VInt 5]) (lit " [ 12") /\
  (exists r, parse_text 10 ropts_default [DObj [] []] 0 (VObj []) (lit "{") = Ok (VObj [], r) /\ rerr r = None).
Proof. cbv zeta. repeat split; eexists; (split; [vm_compute; reflexivity|reflexivity]). Qed.
Print Assumptions c39_refuted.

(* Every proper prefix of the text of a_box (PropJsonDoc), as printed by default. *)
Example c39_example : exists text steps,
  (forall fuel, (steps <= fuel)%nat -> print_text fuel wopts_default box_env 0 a_box = Ok (text, false)) /\
  forall p q, text = p ++ q -> q <> [] ->
  forall fuel v r, parse_text fuel ropts_default box_env 0 (dval box_env 0) p = Ok (v, r) -> rerr r = None ->
    cut_at_start (dia ropts_default) p.
Proof.
  apply c39_printed_truncation.
  - apply box_simple.
  - apply simple_no_void, box_simple.
  - cbn; lia.
  - exact a_box_typed.
  - apply simple_restores; [exact box_simple|exact a_box_typed|exact a_box_sorted].
  - exact box_names.
  - unfold a_box, box. strs.
  - discriminate.
  - exact I.
Qed.
(* and one of them, which is reported *)
Example c39_reported : exists v r, parse_text 10 ropts_default box_env 0 (dval box_env 0) (lit "{ ""in"": [], ""n"": ""a"" ") = Ok (v, r) /\ rerr r <> None.
Proof. eexists _, _. split; [vm_compute; reflexivity|discriminate]. Qed.
