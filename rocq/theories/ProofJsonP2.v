(* ProofJsonP2.v - a reader that found a bracket, separator, literal or string has
   not reached the end of its input; consequences for containers. *)
From Coq Require String. Import String.StringSyntax.
From Verif Require Import Base Dec ModelJson ModelJsonW ModelJsonT SpecJson SpecJsonT ProofJson1 ProofJson4 ProofJson5.
Local Open Scope outcome_scope.
Local Open Scope N_scope.

Definition hard (t : token) : bool :=
  match t with TNone | TEOS | TInt | TFloat => false | _ => true end.
Definition good (r : reader) : Prop := reof r = false /\ rfail r = false.
Definition J (r : reader) : Prop := rerr r = None -> hard (rtok r) = true -> good r.

Lemma err_some c r : rerr (rerror_set c r) <> None.
Proof. unfold rerror_set. destruct (rerr r) eqn:E; cbn; congruence. Qed.
Lemma rok_true r : rok r = true -> rerr r = None /\ rfail r = false.
Proof. unfold rok. destruct (rerr r); [discriminate|]. destruct (rfail r); [discriminate|auto]. Qed.
Lemma good_rok r : rerr r = None -> good r -> rok r = true.
Proof. unfold good, rok. intros -> [_ ->]. reflexivity. Qed.
Lemma ev_err_none r r' : evolves r r' -> rerr r' = None -> rerr r = None.
Proof. intros (_ & H & _) E. destruct (rerr r) as [x|] eqn:K; [|reflexivity]. rewrite (H _ eq_refl) in E. discriminate. Qed.
Lemma rs_err_none r r' : rsteps r r' -> rerr r' = None -> rerr r = None.
Proof. intro. apply ev_err_none. now apply rs_evolves. Qed.
Lemma pop_good r c r' : popc r = (c, r') -> c <> c_eof -> good r'.
Proof.
  unfold popc, good. destruct (reof r || rfail r) eqn:E; [intro H; injection H as <- <-; congruence|].
  apply orb_false_iff in E as [E1 E2]. destruct (rin r) as [|x s]; intro H; injection H as <- <-; [congruence|]. cbn. auto.
Qed.
Lemma pop_rok_good r c r' : popc r = (c, r') -> rok r' = true -> good r'.
Proof.
  intros H K. destruct (rok_true _ K) as [_ F]. split; [|exact F]. revert H F. unfold popc.
  destruct (reof r || rfail r) eqn:E; [intro H; injection H as <- <-; discriminate|].
  apply orb_false_iff in E as [E1 E2]. destruct (rin r) as [|x s]; intro H; injection H as <- <-; [discriminate|]. cbn. auto.
Qed.

Lemma comment_not_err : forall fuel r r', skip_comment fuel r = Ok r' -> rerr r' = rerr r.
Proof.
  induction fuel as [|f IH]; intros r r' H; [discriminate|]. cbn [skip_comment] in H. destruct (rok r); [|now injection H as <-].
  destruct (popc r) as [c r1] eqn:E. assert (E1 : rerr r1 = rerr r).
  { revert E. unfold popc. destruct (reof r || rfail r); [intro X; now injection X as <- <-|]. destruct (rin r); intro X; now injection X as <- <-. }
  destruct (c =? c_nl); [injection H as <-; auto|]. rewrite <- E1. eauto.
Qed.
Lemma next_char_good : forall fuel r c r', next_char fuel r = Ok (c, r') -> rok r' = true -> c <> c_slash -> good r'.
Proof.
  induction fuel as [|f IH]; intros r c r' H K Hc; [discriminate|]. cbn [next_char] in H. destruct (rok r) eqn:Er; [|injection H as <- <-; congruence].
  destruct (popc r) as [c0 r0] eqn:E. cbv zeta in H.
  destruct (isspace c0); [eauto|]. destruct (N.eqb_spec c0 c_slash) as [->|Hn].
  - destruct (c_slash =? c_nl) eqn:En; [discriminate|]. destruct (peekc r0) as [d r2] eqn:Ep. destruct (d =? c_slash).
    + apply bind_ok in H as (r4 & _ & H). eauto.
    + injection H as <- <-. congruence.
  - injection H as <- <-. destruct (c0 =? c_nl); [|eapply pop_rok_good; eauto].
    eapply pop_rok_good in E; eauto.
Qed.
Lemma literal_good : forall l r r', Forall (fun x => x <> c_eof) l -> literal_loop l r = ([], r') -> good r -> good r'.
Proof.
  induction l as [|x l IH]; intros r r' Hl H G; cbn [literal_loop] in H; [now injection H as <-|].
  destruct (rok r); [|discriminate]. destruct (popc r) as [c r1] eqn:E. destruct (N.eqb_spec c x) as [->|]; [|discriminate].
  inversion_clear Hl. eapply IH; eauto. eapply pop_good; eauto.
Qed.
Lemma read_literal_good l r : Forall (fun x => x <> c_eof) l -> rerr (read_literal l r) = None -> good r -> good (read_literal l r).
Proof.
  unfold read_literal. intros Hl H G. destruct (literal_loop l r) as [rest r1] eqn:E. destruct rest; [eapply literal_good; eauto|].
  destruct (err_some _ _ H).
Qed.
Lemma string_good : forall fuel r r', string_loop fuel r = Ok r' -> rerr r' = None -> good r'.
Proof.
  induction fuel as [|f IH]; intros r r' H K; [discriminate|]. cbn [string_loop] in H.
  destruct (rok r); [|injection H as <-; destruct (err_some _ _ K)].
  destruct (popc r) as [c r1] eqn:E. destruct (c =? c_nl); [eauto|].
  destruct (N.testbit c 7 && o_validate (ropt r1)); [apply bind_ok in H as (r2 & _ & H); eauto|].
  destruct (N.eqb_spec c c_quote) as [->|]; [injection H as <-; eapply pop_good; [eauto|discriminate]|].
  destruct (c =? c_bslash); [|eauto]. destruct (popc r1) as [e r2]. destruct (e =? 117); [apply bind_ok in H as (r3 & _ & H); eauto|].
  destruct (escape_value e); [eauto|]. injection H as <-. destruct (err_some _ _ K).
Qed.
Lemma number_soft c r t r' : read_number c r = Ok (t, r') -> hard t = false.
Proof.
  unfold read_number. intro H. apply bind_ok in H as (r1 & _ & H). destruct (read_char 46 r1) as [dot r2].
  apply bind_ok in H as (r3 & _ & H). destruct (read_chars 101 69 r3) as [ex r4]. apply bind_ok in H as (r5 & _ & H).
  injection H as <- <-. destruct (dot || ex); reflexivity.
Qed.
Lemma lex_good r t r' : lex_token r = Ok (t, r') -> rerr r' = None -> hard t = true -> good r'.
Proof.
  unfold lex_token. intros H K Ht. destruct (rok r); cbn [negb] in H; [|injection H as <- <-; discriminate].
  apply bind_ok in H as ([c r1] & E & H). destruct (rok r1) eqn:Ek; cbn [negb] in H; [|injection H as <- <-; discriminate].
  assert (G : c <> c_slash -> good r1) by (eapply next_char_good; eauto).
  assert (L : forall l, Forall (fun x => x <> c_eof) (lit l) -> Forall (fun x => x <> c_eof) (lit l)) by auto.
  repeat (match type of H with context [if ?x =? ?y then Ok _ else _] => destruct (N.eqb_spec x y) as [->|]; [injection H as <- <-; first [apply G; discriminate | apply read_literal_good; [repeat constructor; discriminate|exact K|apply G; discriminate]]|] end).
  destruct (c =? c_quote). { apply bind_ok in H as (r2 & E2 & H). injection H as <- <-. eapply string_good; eauto. }
  destruct (_ || _); [apply number_soft in H; congruence|]. injection H as <- <-. discriminate.
Qed.
Lemma lex_rtok r t r' : lex_token r = Ok (t, r') -> rtok r' = rtok r.
Proof. intro H. now apply (proj2 (lex_token_fine r)) in H as [? _]. Qed.

Lemma same_none t : same_type t TNone = true -> t = TNone.
Proof. destruct t; cbn; congruence. Qed.
Lemma next_none r t r' : next_tok r = Ok (t, r') -> rtok r' = TNone.
Proof.
  unfold next_tok. destruct (same_type (rtok r) TNone) eqn:E; intro H.
  - rewrite (lex_rtok _ _ _ H). now apply same_none.
  - now injection H as <- <-.
Qed.
Lemma J_none r : rtok r = TNone -> J r.
Proof. intros E _ H. rewrite E in H. discriminate. Qed.
Lemma next_good r t r' : J r -> next_tok r = Ok (t, r') -> rerr r' = None -> hard t = true -> good r'.
Proof.
  unfold next_tok. intros HJ H K Ht. destruct (same_type (rtok r) TNone); [eapply lex_good; eauto|].
  injection H as <- <-. exact (HJ K Ht).
Qed.
Lemma assert_rtok t x r : rtok (assert_tok t x r) = rtok r.
Proof. unfold assert_tok. destruct (same_type t x); [reflexivity|apply rtok_err]. Qed.
Lemma assert_none t x r : rerr (assert_tok t x r) = None -> same_type t x = true /\ assert_tok t x r = r.
Proof. unfold assert_tok. destruct (same_type t x); [auto|]. intro H. destruct (err_some _ _ H). Qed.
Lemma expect_none x r t r' : expect_tok x r = Ok (t, r') -> rtok r' = TNone.
Proof.
  unfold expect_tok. intro H. apply bind_ok in H as ([t1 r1] & E & H). apply next_none in E.
  destruct (same_type t1 x); injection H as <- <-; [auto|]. now rewrite assert_rtok.
Qed.
Lemma expect_good x r t r' : J r -> expect_tok x r = Ok (t, r') -> rerr r' = None -> hard x = true -> good r'.
Proof.
  unfold expect_tok. intros HJ H K Hx. apply bind_ok in H as ([t1 r1] & E & H).
  destruct (same_type t1 x) eqn:Es; injection H as <- <-.
  - eapply next_good; eauto. destruct t1, x; cbn in *; congruence.
  - apply assert_none in K as [K _]. congruence.
Qed.
Lemma peek_J r t r' : J r -> peek_tok r = Ok (t, r') -> J r' /\ rtok r' = t.
Proof.
  unfold peek_tok. intros HJ H. destruct (same_type (rtok r) TNone) eqn:E.
  - apply bind_ok in H as ([t1 r1] & El & H). injection H as <- <-. split; [|reflexivity].
    intros K Ht. cbn [set_tok rtok] in Ht. exact (lex_good _ _ _ El K Ht).
  - injection H as <- <-. auto.
Qed.

(* what a parsing step leaves: J and, if it succeeded, the end not reached unless the
   token is a number or the input ended in an opening bracket *)
Lemma pnull_none r r' : parse_null r = Ok r' -> rtok r' = TNone.
Proof. unfold parse_null. intro H. apply bind_ok in H as ([t r1] & E & H). injection H as <-. eapply expect_none; eauto. Qed.
Lemma pbool_none r b r' : parse_bool r = Ok (b, r') -> rtok r' = TNone.
Proof. unfold parse_bool. intro H. apply bind_ok in H as ([t r1] & E & H). apply bind_ok in H as (x & _ & H). injection H as <- <-. eapply expect_none; eauto. Qed.
Lemma pint_none r b r' : parse_int r = Ok (b, r') -> rtok r' = TNone.
Proof. unfold parse_int. intro H. apply bind_ok in H as ([t r1] & E & H). apply bind_ok in H as (x & _ & H). injection H as <- <-. eapply expect_none; eauto. Qed.
Lemma pstr_none r b r' : parse_string r = Ok (b, r') -> rtok r' = TNone.
Proof. unfold parse_string. intro H. apply bind_ok in H as ([t r1] & E & H). apply bind_ok in H as (x & _ & H). injection H as <- <-. eapply expect_none; eauto. Qed.
Lemma pfloat_none r b r' : parse_float r = Ok (b, r') -> rtok r' = TNone.
Proof.
  unfold parse_float. intro H. apply bind_ok in H as ([t r1] & E & H). cbv zeta in H. apply bind_ok in H as (x & _ & H). injection H as <- <-.
  apply next_none in E. destruct (same_type t TInt); [auto|]. now rewrite assert_rtok.
Qed.

(* the token of an opening bracket, and the input ending after it *)
Definition cut_open (o : token) (r : reader) : Prop :=
  exists r1 t2 r2, next_tok r = Ok (o, r1) /\ peek_tok r1 = Ok (t2, r2) /\ rok r2 = false /\ rerr r2 = None.

Lemma object_loop_J {S : Type} (fn : str -> S -> reader -> outcome (S * reader)) :
  (forall k s r s' r', fn k s r = Ok (s', r') -> rsteps r r') ->
  (forall k s r s' r', J r -> fn k s r = Ok (s', r') -> J r') ->
  forall fuel s r s' r', object_loop fuel fn s r = Ok (s', r') -> J r ->
    J r' /\ (rok r = true -> rerr r' = None -> good r').
Proof.
  intros Hst Hf. induction fuel as [|f IH]; intros s r s' r' H HJ; [discriminate|]. cbn [object_loop] in H.
  destruct (rok r) eqn:Ek; [|injection H as <- <-; split; [auto|discriminate]].
  apply bind_ok in H as ([t r1] & E1 & H). apply bind_ok in H as (x & _ & H). apply bind_ok in H as ([u r2] & E2 & H).
  apply bind_ok in H as ([s1 r3] & E3 & H). apply bind_ok in H as ([t2 r4] & E4 & H).
  assert (J3 : J r3). { eapply Hf; [|eauto]. apply J_none. eapply expect_none; eauto. }
  destruct (same_type t2 TObjE) eqn:Es.
  - injection H as <- <-. split; [apply J_none; eapply next_none; eauto|]. intros _ K. eapply next_good; eauto. destruct t2; discriminate || reflexivity.
  - assert (J4 : J (assert_tok t2 TSep r4)) by (apply J_none; rewrite assert_rtok; eapply next_none; eauto).
    destruct (IH _ _ _ _ H J4) as [A B]. split; [exact A|]. intros _ K. apply B; [|exact K].
    pose proof (rs_err_none _ _ (rs_object_loop _ Hst _ _ _ _ _ H) K) as K4. destruct (assert_none _ _ _ K4) as [Ht Ea]. rewrite Ea in *.
    apply good_rok; [exact K4|]. apply (next_good _ _ _ J3 E4 K4). destruct t2; discriminate || reflexivity.
Qed.
Lemma array_loop_J {S : Type} (fn : nat -> S -> reader -> outcome (S * reader)) :
  (forall k s r s' r', fn k s r = Ok (s', r') -> rsteps r r') ->
  (forall k s r s' r', J r -> fn k s r = Ok (s', r') -> J r') ->
  forall fuel i s r s' r', array_loop fuel fn i s r = Ok (s', r') -> J r ->
    J r' /\ (rok r = true -> rerr r' = None -> good r').
Proof.
  intros Hst Hf. induction fuel as [|f IH]; intros i s r s' r' H HJ; [discriminate|]. cbn [array_loop] in H.
  destruct (rok r) eqn:Ek; [|injection H as <- <-; split; [auto|discriminate]].
  apply bind_ok in H as ([s1 r3] & E3 & H). apply bind_ok in H as ([t2 r4] & E4 & H).
  assert (J3 : J r3) by (eapply Hf; eauto).
  destruct (same_type t2 TArrE) eqn:Es.
  - injection H as <- <-. split; [apply J_none; eapply next_none; eauto|]. intros _ K. eapply next_good; eauto. destruct t2; discriminate || reflexivity.
  - assert (J4 : J (assert_tok t2 TSep r4)) by (apply J_none; rewrite assert_rtok; eapply next_none; eauto).
    destruct (IH _ _ _ _ _ H J4) as [A B]. split; [exact A|]. intros _ K. apply B; [|exact K].
    pose proof (rs_err_none _ _ (rs_array_loop _ Hst _ _ _ _ _ _ H) K) as K4. destruct (assert_none _ _ _ K4) as [Ht Ea]. rewrite Ea in *.
    apply good_rok; [exact K4|]. apply (next_good _ _ _ J3 E4 K4). destruct t2; discriminate || reflexivity.
Qed.
Lemma same_type_eq t o : same_type t o = true -> (forall b, o <> TBool b) -> t = o.
Proof. destruct t, o; cbn; congruence. Qed.
Lemma object_J {S : Type} (fn : str -> S -> reader -> outcome (S * reader)) fuel s r s' r' :
  (forall k s r s' r', fn k s r = Ok (s', r') -> rsteps r r') ->
  (forall k s r s' r', J r -> fn k s r = Ok (s', r') -> J r') ->
  parse_object fuel fn s r = Ok (s', r') -> J r ->
  J r' /\ (rerr r' = None -> good r' \/ cut_open TObjS r).
Proof.
  intros Hst Hf H HJ. unfold parse_object in H. apply bind_ok in H as ([t r1] & E1 & H).
  destruct (same_type t TNull) eqn:En.
  { injection H as <- <-. split; [apply J_none; eapply next_none; eauto|]. intro K. left. eapply next_good; eauto. destruct t; discriminate || reflexivity. }
  apply bind_ok in H as ([t2 r2] & E2 & H).
  assert (J1 : J (assert_tok t TObjS r1)) by (apply J_none; rewrite assert_rtok; eapply next_none; eauto).
  destruct (peek_J _ _ _ J1 E2) as [J2 Ht2]. destruct (same_type t2 TObjE) eqn:Es.
  - apply bind_ok in H as ([u r3] & E3 & H). injection H as <- <-. split; [apply J_none; eapply expect_none; eauto|].
    intro K. left. eapply expect_good; eauto.
  - destruct (object_loop_J fn Hst Hf _ _ _ _ _ H J2) as [A B]. split; [exact A|]. intro K. destruct (rok r2) eqn:Ek; [auto|]. right.
    pose proof (rs_err_none _ _ (rs_object_loop _ Hst _ _ _ _ _ H) K) as K2.
    pose proof (rs_err_none _ _ (rs_peek _ _ _ E2) K2) as K1. destruct (assert_none _ _ _ K1) as [Ht Ea]. rewrite Ea in *.
    apply same_type_eq in Ht; [|discriminate]. subst t. exists r1, t2, r2. auto.
Qed.
Lemma array_J {S : Type} (fn : nat -> S -> reader -> outcome (S * reader)) fuel s r s' r' :
  (forall k s r s' r', fn k s r = Ok (s', r') -> rsteps r r') ->
  (forall k s r s' r', J r -> fn k s r = Ok (s', r') -> J r') ->
  parse_array fuel fn s r = Ok (s', r') -> J r ->
  J r' /\ (rerr r' = None -> good r' \/ cut_open TArrS r).
Proof.
  intros Hst Hf H HJ. unfold parse_array in H. apply bind_ok in H as ([t r1] & E1 & H).
  destruct (same_type t TNull) eqn:En.
  { injection H as <- <-. split; [apply J_none; eapply next_none; eauto|]. intro K. left. eapply next_good; eauto. destruct t; discriminate || reflexivity. }
  apply bind_ok in H as ([t2 r2] & E2 & H).
  assert (J1 : J (assert_tok t TArrS r1)) by (apply J_none; rewrite assert_rtok; eapply next_none; eauto).
  destruct (peek_J _ _ _ J1 E2) as [J2 Ht2]. destruct (same_type t2 TArrE) eqn:Es.
  - apply bind_ok in H as ([u r3] & E3 & H). injection H as <- <-. split; [apply J_none; eapply expect_none; eauto|].
    intro K. left. eapply expect_good; eauto.
  - destruct (array_loop_J fn Hst Hf _ _ _ _ _ _ H J2) as [A B]. split; [exact A|]. intro K. destruct (rok r2) eqn:Ek; [auto|]. right.
    pose proof (rs_err_none _ _ (rs_array_loop _ Hst _ _ _ _ _ _ H) K) as K2.
    pose proof (rs_err_none _ _ (rs_peek _ _ _ E2) K2) as K1. destruct (assert_none _ _ _ K1) as [Ht Ea]. rewrite Ea in *.
    apply same_type_eq in Ht; [|discriminate]. subst t. exists r1, t2, r2. auto.
Qed.

Lemma rs_skip_cb f (k : nat) (s : unit) r s' r' : (do r' <- skip f r; Ok (tt, r')) = Ok (s', r') -> rsteps r r'.
Proof. intro H. apply bind_ok in H as (r1 & E & H). injection H as <- <-. eapply rs_skip; eauto. Qed.
Lemma skip_J : forall fuel r r', J r -> skip fuel r = Ok r' -> J r'.
Proof.
  induction fuel as [|f IH]; intros r r' HJ H; [discriminate|]. cbn [skip] in H. apply bind_ok in H as ([t r1] & E & H).
  destruct (peek_J _ _ _ HJ E) as [J1 Ht]. destruct (rok r1); cbn [negb] in H; [|now injection H as <-].
  assert (Hcb : forall (k : nat) (s : unit) r s' r', J r -> (do r' <- skip f r; Ok (tt, r')) = Ok (s', r') -> J r').
  { intros k s r0 s' r0' HJ0 H0. apply bind_ok in H0 as (r2 & E2 & H0). injection H0 as <- <-. eauto. }
  destruct t; try discriminate; try (apply bind_ok in H as ([u r2] & E2 & H); injection H as <-; apply J_none; eapply next_none; eassumption).
  - apply bind_ok in H as ([u r2] & E2 & H). injection H as <-. eapply object_J in E2; [apply E2| | |exact J1].
    + intros k. apply (rs_skip_cb f 0%nat).
    + intros k. apply (Hcb 0%nat).
  - apply bind_ok in H as ([u r2] & E2 & H). injection H as <-. eapply array_J in E2; [apply E2| | |exact J1].
    + intros k. apply (rs_skip_cb f k).
    + intros k. apply (Hcb k).
Qed.
Definition num_first (r : reader) : Prop := exists t r1, next_tok r = Ok (t, r1) /\ (t = TInt \/ t = TFloat).
Definition outcome_of (r r' : reader) : Prop :=
  J r' /\ (rerr r' = None -> good r' \/ num_first r \/ cut_open TObjS r \/ cut_open TArrS r).

Lemma peek_next r t r1 : rtok r = TNone -> peek_tok r = Ok (t, r1) -> t <> TNone ->
  next_tok r = Ok (t, set_tok TNone r1) /\ next_tok r1 = Ok (t, set_tok TNone r1).
Proof.
  unfold peek_tok, next_tok. intros E0 H Ht. rewrite E0 in *. cbn [same_type] in *. apply bind_ok in H as ([t1 r2] & E & H). injection H as <- <-.
  split.
  - rewrite E. f_equal. f_equal. pose proof (lex_rtok _ _ _ E). destruct r2. cbn in *. rewrite E0 in H. subst. reflexivity.
  - cbn [set_tok rtok]. destruct t1; cbn [same_type]; congruence || reflexivity.
Qed.

(* for a reader without a pending token *)
Lemma of_none r r' : rtok r' = TNone -> (rerr r' = None -> good r' \/ num_first r \/ cut_open TObjS r \/ cut_open TArrS r) -> outcome_of r r'.
Proof. intros E H. split; [now apply J_none|exact H]. Qed.

Lemma expect_of x r t r' : J r -> expect_tok x r = Ok (t, r') -> hard x = true -> outcome_of r r'.
Proof. intros HJ H Hx. apply of_none; [eapply expect_none; eauto|]. intro K. left. eapply expect_good; eauto. Qed.
Lemma null_of r r' : J r -> parse_null r = Ok r' -> outcome_of r r'.
Proof. intros HJ H. unfold parse_null in H. apply bind_ok in H as ([t r1] & E & H). injection H as <-. eapply expect_of; eauto. Qed.
Lemma bool_of r b r' : J r -> parse_bool r = Ok (b, r') -> outcome_of r r'.
Proof. intros HJ H. unfold parse_bool in H. apply bind_ok in H as ([t r1] & E & H). apply bind_ok in H as (x & _ & H). injection H as <- <-. eapply expect_of; eauto. Qed.
Lemma str_of r b r' : J r -> parse_string r = Ok (b, r') -> outcome_of r r'.
Proof. intros HJ H. unfold parse_string in H. apply bind_ok in H as ([t r1] & E & H). apply bind_ok in H as (x & _ & H). injection H as <- <-. eapply expect_of; eauto. Qed.
Lemma int_of r b r' : parse_int r = Ok (b, r') -> outcome_of r r'.
Proof.
  intros H. apply of_none; [eapply pint_none; eauto|]. intro K. right. left. unfold parse_int in H.
  apply bind_ok in H as ([t r1] & E & H). apply bind_ok in H as (x & _ & H). injection H as <- <-.
  unfold expect_tok in E. apply bind_ok in E as ([t1 r2] & E1 & E). destruct (same_type t1 TInt) eqn:Es.
  - apply same_type_eq in Es; [|discriminate]. subst. exists TInt, r2. auto.
  - injection E as <- <-. apply assert_none in K as [K _]. congruence.
Qed.
Lemma float_of r b r' : parse_float r = Ok (b, r') -> outcome_of r r'.
Proof.
  intros H. apply of_none; [eapply pfloat_none; eauto|]. intro K. right. left. unfold parse_float in H.
  apply bind_ok in H as ([t r1] & E & H). cbv zeta in H. apply bind_ok in H as (x & A & H).
  exists t, r1. split; [exact E|]. destruct t; cbn in A; try discriminate. now right.
Qed.
Lemma object_of {S : Type} (fn : str -> S -> reader -> outcome (S * reader)) fuel s r s' r' :
  (forall k s r s' r', fn k s r = Ok (s', r') -> rsteps r r') ->
  (forall k s r s' r', J r -> fn k s r = Ok (s', r') -> J r') ->
  parse_object fuel fn s r = Ok (s', r') -> J r -> outcome_of r r'.
Proof. intros A B C D. destruct (object_J fn fuel s r s' r' A B C D) as [E F]. split; [exact E|]. intro K. destruct (F K); auto. Qed.
Lemma array_of {S : Type} (fn : nat -> S -> reader -> outcome (S * reader)) fuel s r s' r' :
  (forall k s r s' r', fn k s r = Ok (s', r') -> rsteps r r') ->
  (forall k s r s' r', J r -> fn k s r = Ok (s', r') -> J r') ->
  parse_array fuel fn s r = Ok (s', r') -> J r -> outcome_of r r'.
Proof. intros A B C D. destruct (array_J fn fuel s r s' r' A B C D) as [E F]. split; [exact E|]. intro K. destruct (F K); auto. Qed.

(* looking at the next token first *)
Lemma not_none_lex r t r' : lex_token r = Ok (t, r') -> t <> TNone.
Proof.
  unfold lex_token. intros H ->. destruct (rok r); cbn [negb] in H; [|discriminate]. apply bind_ok in H as ([c r1] & _ & H).
  destruct (rok r1); cbn [negb] in H; [|discriminate].
  repeat (match type of H with context [if ?x =? ?y then Ok _ else _] => destruct (x =? y); [discriminate|] end).
  destruct (c =? c_quote); [apply bind_ok in H as (r2 & _ & H); discriminate|].
  destruct (_ || _); [|discriminate].
  unfold read_number in H. apply bind_ok in H as (r2 & _ & H). destruct (read_char 46 r2) as [dot r3].
  apply bind_ok in H as (r4 & _ & H). destruct (read_chars 101 69 r4) as [ex r5]. apply bind_ok in H as (r6 & _ & H). injection H as H _. destruct (dot || ex); discriminate.
Qed.
Lemma peek_not_none r t r1 : peek_tok r = Ok (t, r1) -> t <> TNone.
Proof.
  unfold peek_tok. destruct (same_type (rtok r) TNone) eqn:E; intro H.
  - apply bind_ok in H as ([t1 r2] & El & H). injection H as <- <-. eapply not_none_lex; eauto.
  - injection H as <- <-. intro K. rewrite K in E. discriminate.
Qed.
Lemma peek_next' r t r1 : peek_tok r = Ok (t, r1) ->
  next_tok r = Ok (t, set_tok TNone r1) /\ next_tok r1 = Ok (t, set_tok TNone r1).
Proof.
  intro H. destruct (same_type (rtok r) TNone) eqn:E.
  - apply peek_next; [now apply same_none|exact H|eapply peek_not_none; eauto].
  - unfold peek_tok in H. rewrite E in H. injection H as <- <-. unfold next_tok. rewrite E. auto.
Qed.
Lemma peek_of r t r1 r' : peek_tok r = Ok (t, r1) -> outcome_of r1 r' -> outcome_of r r'.
Proof.
  intros H [A B]. split; [exact A|]. intro K. destruct (peek_next' _ _ _ H) as [N1 N2].
  destruct (B K) as [G|[(t0 & r0 & E & Ht)|[C|C]]]; [auto| | |].
  - right. left. exists t, (set_tok TNone r1). split; [exact N1|]. rewrite N2 in E. injection E as <- <-. exact Ht.
  - right. right. left. destruct C as (r2 & t2 & r3 & E & C). exists r2, t2, r3. split; [|exact C]. rewrite N1, <- N2. exact E.
  - right. right. right. destruct C as (r2 & t2 & r3 & E & C). exists r2, t2, r3. split; [|exact C]. rewrite N1, <- N2. exact E.
Qed.

Lemma dyn_of : forall fuel v r v' r', J r -> parse_dyn fuel v r = Ok (v', r') -> outcome_of r r'.
Proof.
  induction fuel as [|f IH]; intros v r v' r' HJ H; [discriminate|]. cbn [parse_dyn] in H. apply bind_ok in H as ([t r1] & E & H).
  destruct (peek_J _ _ _ HJ E) as [J1 Ht].
  assert (Hs : forall v r v' r', parse_dyn f v r = Ok (v', r') -> rsteps r r') by (apply rs_dyn).
  destruct t; try (injection H as <- <-; split; [intro X; destruct (err_some _ _ X)|intro X; destruct (err_some _ _ X)]);
    apply (peek_of _ _ _ _ E).
  - apply bind_ok in H as ([m r2] & E2 & H). injection H as <- <-. eapply object_of; [| |exact E2|exact J1].
    + intros k s r0 s' r0' H0. apply bind_ok in H0 as ([x r3] & E3 & H0). injection H0 as <- <-. eauto.
    + intros k s r0 s' r0' HJ0 H0. apply bind_ok in H0 as ([x r3] & E3 & H0). injection H0 as <- <-. eapply IH; eauto.
  - apply bind_ok in H as ([m r2] & E2 & H). injection H as <- <-. eapply array_of; [| |exact E2|exact J1].
    + intros k s r0 s' r0' H0. apply bind_ok in H0 as ([x r3] & E3 & H0). injection H0 as <- <-. eauto.
    + intros k s r0 s' r0' HJ0 H0. apply bind_ok in H0 as ([x r3] & E3 & H0). injection H0 as <- <-. eapply IH; eauto.
  - apply bind_ok in H as ([m r2] & E2 & H). injection H as <- <-. eapply str_of; eauto.
  - apply bind_ok in H as ([m r2] & E2 & H). injection H as <- <-. eapply int_of; eauto.
  - apply bind_ok in H as ([m r2] & E2 & H). injection H as <- <-. eapply float_of; eauto.
  - apply bind_ok in H as ([m r2] & E2 & H). injection H as <- <-. eapply bool_of; eauto.
  - apply bind_ok in H as (r2 & E2 & H). injection H as <- <-. eapply null_of; eauto.
Qed.
Lemma typed_of : forall fuel e t v r v' mv r', J r -> parse_t fuel e t v r = Ok (v', mv, r') -> outcome_of r r'.
Proof.
  induction fuel as [|f IH]; intros e t v r v' mv r' HJ H; [discriminate|]. cbn [parse_t] in H.
  destruct (nth_error e t) as [d|]; [|discriminate]. destruct d.
  - apply bind_ok in H as ([b r1] & E & H). injection H as <- <- <-. eapply bool_of; eauto.
  - apply bind_ok in H as ([b r1] & E & H). destruct is_int64; [|discriminate]. injection H as <- <- <-. eapply int_of; eauto.
  - apply bind_ok in H as ([b r1] & E & H). destruct is_double; [|discriminate]. injection H as <- <- <-. eapply float_of; eauto.
  - apply bind_ok in H as ([b r1] & E & H). injection H as <- <- <-. eapply str_of; eauto.
  - apply bind_ok in H as ([tk r1] & E & H). destruct (peek_J _ _ _ HJ E) as [J1 Ht]. apply (peek_of _ _ _ _ E).
    destruct (same_type tk TNull) eqn:Es.
    + apply bind_ok in H as ([u r2] & E2 & H). injection H as <- <- <-. apply of_none; [eapply next_none; eauto|].
      intro K. left. apply (next_good _ _ _ J1 E2 K). destruct (peek_next' _ _ _ E) as [_ N2]. rewrite N2 in E2. injection E2 as <- <-.
      destruct tk; discriminate || reflexivity.
    + cbv zeta in H. apply bind_ok in H as ([[p' m] r2] & E2 & H). injection H as <- <- <-. eapply IH; eauto.
  - apply bind_ok in H as ([m r2] & E2 & H). injection H as <- <- <-. eapply object_of; [| |exact E2|exact HJ].
    + intros k s r0 s' r0' H0. apply bind_ok in H0 as ([[x m0] r3] & E3 & H0). apply rs_typed in E3.
      destruct (rok r3); [destruct m0; [discriminate|]|]; injection H0 as <- <-; auto.
    + intros k s r0 s' r0' HJ0 H0. apply bind_ok in H0 as ([[x m0] r3] & E3 & H0). apply IH in E3; [|exact HJ0].
      destruct (rok r3); [destruct m0; [discriminate|]|]; injection H0 as <- <-; apply E3.
  - apply bind_ok in H as ([m r2] & E2 & H). injection H as <- <- <-. eapply array_of; [| |exact E2|exact HJ].
    + intros k s r0 s' r0' H0. apply bind_ok in H0 as ([[x m0] r3] & E3 & H0). apply rs_typed in E3.
      destruct (rok r3); [destruct m0; [discriminate|]|]; injection H0 as <- <-; auto.
    + intros k s r0 s' r0' HJ0 H0. apply bind_ok in H0 as ([[x m0] r3] & E3 & H0). apply IH in E3; [|exact HJ0].
      destruct (rok r3); [destruct m0; [discriminate|]|]; injection H0 as <- <-; apply E3.
  - apply bind_ok in H as ([x r2] & E2 & H). injection H as <- <- <-. eapply dyn_of; eauto.
  - apply bind_ok in H as ([m r2] & E2 & H). injection H as <- <- <-. eapply object_of; [| |exact E2|exact HJ].
    + intros k s r0 s' r0' H0. cbv beta in H0. destruct (find_alias fs k).
      * apply bind_ok in H0 as ([[x m0] r3] & E3 & H0). apply rs_typed in E3. injection H0 as <- <-. auto.
      * apply bind_ok in H0 as (r3 & E3 & H0). apply rs_skip in E3. injection H0 as <- <-. auto.
    + intros k s r0 s' r0' HJ0 H0. cbv beta in H0. destruct (find_alias fs k).
      * apply bind_ok in H0 as ([[x m0] r3] & E3 & H0). apply IH in E3; [|exact HJ0]. injection H0 as <- <-. apply E3.
      * apply bind_ok in H0 as (r3 & E3 & H0). apply skip_J in E3; [|exact HJ0]. injection H0 as <- <-. auto.
Qed.

(* ---- what the skipped characters were ---- *)
Lemma pop_cases r c r' : popc r = (c, r') -> rerr r = None -> good r ->
  (rin r = c :: rin r' /\ good r' /\ rerr r' = None /\ rok r' = true) \/
  (c = c_eof /\ rin r = [] /\ rin r' = [] /\ rok r' = false /\ rerr r' = None).
Proof.
  unfold popc, good, rok. intros H E [G1 G2]. rewrite G1, G2 in H. cbn [orb] in H. destruct (rin r) as [|x s]; injection H as <- <-; cbn; rewrite E; cbn; auto.
  all: first [left; repeat split; congruence | right; repeat split; congruence].
Qed.
Lemma comment_inv : forall fuel r r', skip_comment fuel r = Ok r' -> rerr r = None -> good r ->
  (exists b, rin r = b ++ 10 :: rin r' /\ ~ In 10 b /\ good r') \/ (rok r' = false /\ rin r' = [] /\ ~ In 10 (rin r)).
Proof.
  induction fuel as [|f IH]; intros r r' H E G; [discriminate|]. cbn [skip_comment] in H. rewrite (good_rok _ E G) in H.
  destruct (popc r) as [c r1] eqn:Ep. destruct (pop_cases _ _ _ Ep E G) as [(I1 & G1 & E1 & K1)|(-> & I0 & I1 & K1 & E1)].
  - destruct (N.eqb_spec c c_nl) as [->|Hc].
    + injection H as <-. left. exists []. split; [exact I1|]. auto.
    + destruct (IH _ _ H E1 G1) as [(b & Ib & Hb & Gb)|(Kb & Ib & Hb)].
      * left. exists (c :: b). rewrite I1, Ib. split; [reflexivity|]. split; [|exact Gb]. intros [X|X]; [now apply Hc|auto].
      * right. split; [exact Kb|]. split; [exact Ib|]. rewrite I1. intros [X|X]; [now apply Hc|auto].
  - right. destruct f as [|f]; [discriminate|]. cbn in H. rewrite K1 in H. injection H as <-. rewrite I0. auto.
Qed.
Lemma next_char_dead fuel r : rok r = false -> forall c r', next_char fuel r = Ok (c, r') -> r' = r.
Proof. intros E c r' H. destruct fuel; [discriminate|]. cbn in H. rewrite E in H. now injection H as <- <-. Qed.
Lemma next_char_inv o : forall fuel r c r', next_char fuel r = Ok (c, r') -> rerr r' = None -> rerr r = None -> good r -> ropt r = o ->
  (rok r' = true -> exists w, rin r = w ++ c :: rin r' /\ blank (dia o) w /\ isspace c = false) /\
  (rok r' = false -> rin r' = [] /\ blank_end (dia o) (rin r)).
Proof.
  induction fuel as [|f IH]; intros r c r' H E' E G Ho; [discriminate|]. cbn [next_char] in H. rewrite (good_rok _ E G) in H.
  destruct (popc r) as [c0 r0] eqn:Ep. cbv zeta in H.
  pose proof (pop_spec _ _ _ Ep) as ((O0 & _) & _).
  destruct (pop_cases _ _ _ Ep E G) as [(I1 & G1 & E1 & K1)|(-> & I0 & I1 & K1 & E1)].
  2:{ cbn in H. injection H as <- <-. split; [congruence|]. intros _. split; [exact I1|]. rewrite I0. constructor. constructor. }
  set (r1 := if c0 =? c_nl then newline r0 else r0) in *.
  assert (X : rin r1 = rin r0 /\ rerr r1 = None /\ good r1 /\ ropt r1 = o).
  { unfold r1. destruct (c0 =? c_nl); cbn; repeat split; try apply G1; congruence. }
  destruct X as (Ir & Er & Gr & Or). clearbody r1.
  destruct (isspace c0) eqn:Es.
  - destruct (IH _ _ _ H E' Er Gr Or) as [A B]. split.
    + intro K. destruct (A K) as (w & Iw & Hw & Hs). exists (c0 :: w). rewrite I1, <- Ir, Iw. split; [reflexivity|]. split; [|exact Hs]. constructor; [now apply isspace_iff|exact Hw].
    + intro K. destruct (B K) as [B1 B2]. split; [exact B1|]. rewrite I1, <- Ir. apply isspace_iff in Es. inversion B2; subst.
      * apply be_blank. now constructor.
      * change (c0 :: w ++ 47 :: 47 :: b) with ((c0 :: w) ++ 47 :: 47 :: b). apply be_comment; auto. now constructor.
  - destruct (N.eqb_spec c0 c_slash) as [->|Hn].
    + destruct (peekc r1) as [d r2] eqn:Ek. pose proof (peek_spec _ _ _ Ek) as ((O2 & _) & _ & _ & _ & P).
      destruct (P (good_rok _ Er Gr) (proj1 Gr)) as [(-> & s & Is)|(-> & Is & Ef)].
      * clear P. destruct (N.eqb_spec d c_slash) as [Hd|Hd]; [subst d|].
        -- apply bind_ok in H as (r4 & E4 & H). destruct (o_comments (ropt r1)) eqn:Eo.
           ++ pose proof (comment_not_err _ _ _ E4) as X4. rewrite Er in X4.
              rewrite Or in Eo. destruct (comment_inv _ _ _ E4 Er Gr) as [(b & Ib & Hb & Gb)|(Kb & Ib & Hb)].
              ** assert (O4 : ropt r4 = o).
                 { pose proof (skip_comment_fine (rfuel r1) r1 (m_in_rfuel r1)) as (r4' & F4 & V & _). rewrite E4 in F4. injection F4 as <-. rewrite (ev_opt _ _ V). exact Or. }
                 destruct b as [|b0 b]; rewrite Is in Ib; [discriminate|]. injection Ib as <- Ib.
                 destruct (IH _ _ _ H E' X4 Gb O4) as [A B]. split.
                 --- intro K. destruct (A K) as (w & Iw & Hw & Hs). exists (47 :: 47 :: b ++ 10 :: w). rewrite I1, <- Ir, Is, Ib, Iw. split; [|split; [|exact Hs]].
                     { cbn. rewrite <- app_assoc. reflexivity. } { apply bl_comment; [exact Eo| |exact Hw]. intro X. apply Hb. now right. }
                 --- intro K. destruct (B K) as [B1 B2]. split; [exact B1|]. rewrite I1, <- Ir, Is, Ib.
                     assert (Hb' : ~ In 10 b) by (intro X; apply Hb; now right).
                     inversion B2; subst.
                     { apply be_blank. unfold c_slash. apply bl_comment; [exact Eo|exact Hb'|assumption]. }
                     { assert (Q : 47 :: 47 :: b ++ 10 :: w ++ 47 :: 47 :: b0 = (47 :: 47 :: b ++ 10 :: w) ++ 47 :: 47 :: b0 :> str) by (cbn; rewrite <- app_assoc; reflexivity).
                       refine (eq_ind_r (blank_end _) _ Q).
                       apply be_comment; [exact Eo| |assumption]. apply bl_comment; [exact Eo|exact Hb'|assumption]. }
              ** apply next_char_dead in H; [|exact Kb]. subst r4. split; [congruence|]. intros _. split; [exact Ib|].
                 rewrite I1, <- Ir, Is. unfold c_slash. change (47 :: 47 :: s) with ([] ++ 47 :: 47 :: s). apply be_comment; [exact Eo|constructor|].
                 rewrite Is in Hb. intro X. apply Hb. now right.
           ++ exfalso. pose proof (comment_not_err _ _ _ E4) as X4. assert (K4 : rok r4 = false).
              { unfold rok. rewrite X4. destruct (rerr (rerror_set EComment r1)) eqn:Z; [reflexivity|destruct (err_some _ _ Z)]. }
              apply next_char_dead in H; [|exact K4]. subst r'. rewrite X4 in E'. destruct (err_some _ _ E').
        -- injection H as <- <-. split; [|rewrite (good_rok _ Er Gr); discriminate]. intros _. exists []. rewrite I1, Ir. split; [reflexivity|]. split; [constructor|exact Es].
      * injection H as <- <-. split.
        -- intros _. exists []. cbn [app]. rewrite I1, <- Ir. pose proof (peek_spec _ _ _ Ek) as (_ & Ip & _). rewrite Ip. split; [reflexivity|]. split; [constructor|exact Es].
        -- intro K. exfalso. revert Ek K. unfold peekc. destruct Gr as [Gr1 Gr2]. rewrite Gr1, Gr2, Is. cbn [orb]. intro Z. injection Z as <-. unfold rok. cbn. rewrite Er, ?Gr2. discriminate.
    + injection H as <- <-. split; [|rewrite (good_rok _ Er Gr); discriminate]. intros _. exists []. rewrite I1, Ir. split; [reflexivity|]. split; [constructor|exact Es].
Qed.
