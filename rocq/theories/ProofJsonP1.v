(* ProofJsonP1.v - a reader that does not reach the end of its input does not see
   what comes after: every operation gives the same result on a longer input. *)
From Coq Require String. Import String.StringSyntax.
From Verif Require Import Base Dec ModelJson ModelJsonW ModelJsonT SpecJson SpecJsonT ProofJson1 ProofJson4 ProofJson5.
Local Open Scope outcome_scope.
Local Open Scope N_scope.

Section Ext.
Variable q : str.
Definition ext (r : reader) : reader :=
  mkR (rin r ++ q) (reof r) (rfail r) (rerr r) (rpos r) (rline r) (rbuf r) (rtok r) (ropt r).

(* x, started in r, and y, started in ext r *)
Definition P0 (r r' : reader) : Prop := reof r = true -> reof r' = true.
Definition sim {A} (r : reader) (x y : outcome (A * reader)) : Prop :=
  forall a r', x = Ok (a, r') -> P0 r r' /\ (reof r' = false -> y = Ok (a, ext r')).
Definition sim1 (r : reader) (x y : outcome reader) : Prop :=
  forall r', x = Ok r' -> P0 r r' /\ (reof r' = false -> y = Ok (ext r')).
Definition simp {A} (r : reader) (x y : A * reader) : Prop :=
  P0 r (snd x) /\ (reof (snd x) = false -> y = (fst x, ext (snd x))).

Lemma back r r' : P0 r r' -> reof r' = false -> reof r = false.
Proof. unfold P0. destruct (reof r); auto. intros H K. rewrite H in K by auto. discriminate. Qed.

Lemma sim_bind {A B} r (x y : outcome (A * reader)) (k k' : A -> reader -> outcome (B * reader)) :
  sim r x y -> (forall a r1, sim r1 (k a r1) (k' a (ext r1))) ->
  sim r (do (a, r1) <- x; k a r1) (do (a, r1) <- y; k' a r1).
Proof.
  intros Hx Hk a r' H. apply bind_ok in H as ([b r1] & E & H). destruct (Hx _ _ E) as [P1 Q1]. destruct (Hk _ _ _ _ H) as [P2 Q2].
  split; [intro K; auto|]. intro K. rewrite (Q1 (back _ _ P2 K)). cbn [bind]. auto.
Qed.
Lemma sim_bind3 {A B C} r (x y : outcome (A * B * reader)) (k k' : A -> B -> reader -> outcome (C * reader)) :
  sim r x y -> (forall a b r1, sim r1 (k a b r1) (k' a b (ext r1))) ->
  sim r (do (a, b, r1) <- x; k a b r1) (do (a, b, r1) <- y; k' a b r1).
Proof.
  intros Hx Hk a r' H. apply bind_ok in H as ([[b1 b2] r1] & E & H). destruct (Hx _ _ E) as [P1 Q1]. destruct (Hk _ _ _ _ _ H) as [P2 Q2].
  split; [intro K; auto|]. intro K. rewrite (Q1 (back _ _ P2 K)). cbn [bind]. auto.
Qed.
Lemma sim_bind1 {A} r (x y : outcome reader) (k k' : reader -> outcome (A * reader)) :
  sim1 r x y -> (forall r1, sim r1 (k r1) (k' (ext r1))) -> sim r (do r1 <- x; k r1) (do r1 <- y; k' r1).
Proof.
  intros Hx Hk a r' H. apply bind_ok in H as (r1 & E & H). destruct (Hx _ E) as [P1 Q1]. destruct (Hk _ _ _ H) as [P2 Q2].
  split; [intro K; auto|]. intro K. rewrite (Q1 (back _ _ P2 K)). cbn [bind]. auto.
Qed.
Lemma sim1_bind1 r (x y : outcome reader) (k k' : reader -> outcome reader) :
  sim1 r x y -> (forall r1, sim1 r1 (k r1) (k' (ext r1))) -> sim1 r (do r1 <- x; k r1) (do r1 <- y; k' r1).
Proof.
  intros Hx Hk r' H. apply bind_ok in H as (r1 & E & H). destruct (Hx _ E) as [P1 Q1]. destruct (Hk _ _ H) as [P2 Q2].
  split; [intro K; auto|]. intro K. rewrite (Q1 (back _ _ P2 K)). cbn [bind]. auto.
Qed.
Lemma sim1_bind {A} r (x y : outcome (A * reader)) (k k' : A -> reader -> outcome reader) :
  sim r x y -> (forall a r1, sim1 r1 (k a r1) (k' a (ext r1))) ->
  sim1 r (do (a, r1) <- x; k a r1) (do (a, r1) <- y; k' a r1).
Proof.
  intros Hx Hk r' H. apply bind_ok in H as ([b r1] & E & H). destruct (Hx _ _ E) as [P1 Q1]. destruct (Hk _ _ _ H) as [P2 Q2].
  split; [intro K; auto|]. intro K. rewrite (Q1 (back _ _ P2 K)). cbn [bind]. auto.
Qed.
(* a value that does not depend on what is added *)
Lemma sim_pure {A B} r (x : outcome A) (k k' : A -> outcome (B * reader)) :
  (forall a, sim r (k a) (k' a)) -> sim r (do a <- x; k a) (do a <- x; k' a).
Proof. intros H a r' E. destruct x; try discriminate. cbn [bind] in *. now apply H. Qed.
Lemma simp_bind {A B} r (x y : B * reader) (k k' : B -> reader -> outcome (A * reader)) :
  simp r x y -> (forall b r1, sim r1 (k b r1) (k' b (ext r1))) ->
  sim r (let (b, r1) := x in k b r1) (let (b, r1) := y in k' b r1).
Proof.
  destruct x as [b r1]. intros [P1 Q1] Hk a r' H. cbn [fst snd] in *. destruct (Hk _ _ _ _ H) as [P2 Q2].
  split; [intro K; auto|]. intro K. rewrite (Q1 (back _ _ P2 K)). auto.
Qed.
Lemma simp_bind1 {B} r (x y : B * reader) (k k' : B -> reader -> outcome reader) :
  simp r x y -> (forall b r1, sim1 r1 (k b r1) (k' b (ext r1))) ->
  sim1 r (let (b, r1) := x in k b r1) (let (b, r1) := y in k' b r1).
Proof.
  destruct x as [b r1]. intros [P1 Q1] Hk r' H. cbn [fst snd] in *. destruct (Hk _ _ _ H) as [P2 Q2].
  split; [intro K; auto|]. intro K. rewrite (Q1 (back _ _ P2 K)). auto.
Qed.
Lemma simp_let {A B} r (x y : B * reader) (k k' : B -> reader -> A * reader) :
  simp r x y -> (forall b r1, simp r1 (k b r1) (k' b (ext r1))) ->
  simp r (let (b, r1) := x in k b r1) (let (b, r1) := y in k' b r1).
Proof.
  destruct x as [b r1]. intros [P1 Q1] Hk. cbn [fst snd] in *. destruct (Hk b r1) as [P2 Q2].
  split; [intro K; auto|]. intro K. rewrite (Q1 (back _ _ P2 K)). auto.
Qed.
Lemma sim_ok {A} r (a : A) : sim r (Ok (a, r)) (Ok (a, ext r)).
Proof. intros b r' H. injection H as <- <-. split; [intro; auto|auto]. Qed.
Lemma sim1_ok r : sim1 r (Ok r) (Ok (ext r)).
Proof. intros r' H. injection H as <-. split; [intro; auto|auto]. Qed.
Lemma simp_ok {A} r (a : A) : simp r (a, r) (a, ext r).
Proof. split; [intro; auto|auto]. Qed.
(* changes that do not touch the stream *)
Lemma sim_ok' {A} r r1 (a : A) r2 : reof r1 = reof r -> r2 = ext r1 -> sim r (Ok (a, r1)) (Ok (a, r2)).
Proof. intros E -> b r' H. injection H as <- <-. split; [intro; congruence|auto]. Qed.
Lemma sim1_ok' r r1 r2 : reof r1 = reof r -> r2 = ext r1 -> sim1 r (Ok r1) (Ok r2).
Proof. intros E -> r' H. injection H as <-. split; [intro; congruence|auto]. Qed.
Lemma sim_shift {A} r r1 (x y : outcome (A * reader)) : reof r1 = reof r -> sim r1 x y -> sim r x y.
Proof. intros E H a r' K. destruct (H _ _ K) as [P Q]. split; auto. intro; apply P; congruence. Qed.
Lemma sim1_shift r r1 (x y : outcome reader) : reof r1 = reof r -> sim1 r1 x y -> sim1 r x y.
Proof. intros E H r' K. destruct (H _ K) as [P Q]. split; auto. intro; apply P; congruence. Qed.
Lemma simp_shift {A} r r1 (x y : A * reader) : reof r1 = reof r -> simp r1 x y -> simp r x y.
Proof. intros E [P Q]. split; auto. intro; apply P; congruence. Qed.
Lemma sim_no {A} r (x y : outcome (A * reader)) : (forall a, x <> Ok a) -> sim r x y.
Proof. intros H a r' E. destruct (H _ E). Qed.
Lemma sim1_no r (x y : outcome reader) : (forall a, x <> Ok a) -> sim1 r x y.
Proof. intros H a E. destruct (H _ E). Qed.

Lemma ext_rok r : rok (ext r) = rok r. Proof. reflexivity. Qed.
Lemma ext_err c r : rerror_set c (ext r) = ext (rerror_set c r).
Proof. unfold rerror_set. cbn [ext rerr]. destruct (rerr r); reflexivity. Qed.
Lemma err_eof c r : reof (rerror_set c r) = reof r.
Proof. unfold rerror_set. destruct (rerr r); reflexivity. Qed.
Lemma ext_save c r : save c (ext r) = ext (save c r). Proof. reflexivity. Qed.
Lemma ext_settok t r : set_tok t (ext r) = ext (set_tok t r). Proof. reflexivity. Qed.
Lemma ext_newline r : newline (ext r) = ext (newline r). Proof. reflexivity. Qed.
Lemma ext_reset r : reset_buf (ext r) = ext (reset_buf r). Proof. reflexivity. Qed.
Lemma ext_fuel r : (rfuel r <= rfuel (ext r))%nat.
Proof. unfold rfuel. cbn [ext rin]. rewrite app_length. lia. Qed.

Lemma pop_sim r : simp r (popc r) (popc (ext r)).
Proof.
  unfold popc, simp, P0. cbn [ext reof rfail rin]. destruct (reof r || rfail r) eqn:E; cbn [fst snd reof rin]; auto.
  destruct (rin r) as [|c s]; cbn [fst snd reof app]; auto. split; [auto|discriminate].
Qed.
Lemma peek_sim r : simp r (peekc r) (peekc (ext r)).
Proof.
  unfold peekc, simp, P0. cbn [ext reof rfail rin]. destruct (reof r || rfail r) eqn:E; cbn [fst snd reof rin]; auto.
  destruct (rin r) as [|c s] eqn:Ei; cbn [fst snd reof app]; [split; [auto|discriminate]|]. split; [auto|].
  intros _. unfold ext. rewrite Ei. reflexivity.
Qed.

Lemma comment_sim : forall f g r, (f <= g)%nat -> sim1 r (skip_comment f r) (skip_comment g (ext r)).
Proof.
  induction f as [|f IH]; intros g r Hg; [apply sim1_no; discriminate|]. destruct g as [|g]; [lia|]. cbn [skip_comment]. rewrite ext_rok.
  destruct (rok r); [|apply sim1_ok]. apply simp_bind1; [apply pop_sim|]. intros c r1. destruct (c =? c_nl); [apply sim1_ok|apply IH; lia].
Qed.
Lemma next_char_sim : forall f g r, (f <= g)%nat -> sim r (next_char f r) (next_char g (ext r)).
Proof.
  induction f as [|f IH]; intros g r Hg; [apply sim_no; discriminate|]. destruct g as [|g]; [lia|]. cbn [next_char]. rewrite ext_rok.
  destruct (rok r); [|apply sim_ok]. apply simp_bind; [apply pop_sim|]. intros c r1. cbv zeta.
  assert (E : (if c =? c_nl then newline (ext r1) else ext r1) = ext (if c =? c_nl then newline r1 else r1)) by (destruct (c =? c_nl); reflexivity).
  rewrite E. set (r2 := if c =? c_nl then newline r1 else r1). apply (sim_shift r1 r2); [unfold r2; destruct (c =? c_nl); reflexivity|].
  destruct (isspace c); [apply IH; lia|]. destruct (c =? c_slash); [|apply sim_ok].
  apply simp_bind; [apply peek_sim|]. intros d r3. destruct (d =? c_slash); [|apply sim_ok]. cbn [ext ropt].
  assert (E2 : (if o_comments (ropt r3) then ext r3 else rerror_set EComment (ext r3)) = ext (if o_comments (ropt r3) then r3 else rerror_set EComment r3)).
  { destruct (o_comments (ropt r3)); [reflexivity|apply ext_err]. }
  rewrite E2. set (r4 := if o_comments (ropt r3) then r3 else rerror_set EComment r3).
  apply (sim_shift r3 r4); [unfold r4; destruct (o_comments (ropt r3)); [reflexivity|apply err_eof]|].
  apply sim_bind1; [apply comment_sim, ext_fuel|]. intro r5. apply IH. lia.
Qed.
Lemma literal_sim : forall l r, simp r (literal_loop l r) (literal_loop l (ext r)).
Proof.
  induction l as [|x l IH]; intro r; cbn [literal_loop]; [apply simp_ok|]. rewrite ext_rok. destruct (rok r); [|apply simp_ok].
  apply simp_let; [apply pop_sim|]. intros c r1. destruct (c =? x); [apply IH|apply simp_ok].
Qed.
Lemma read_literal_sim l r : sim1 r (Ok (read_literal l r)) (Ok (read_literal l (ext r))).
Proof.
  unfold read_literal. pose proof (literal_sim l r) as [P Q]. destruct (literal_loop l r) as [rest r1] eqn:E. cbn [fst snd] in *.
  intros r' H. injection H as <-. split.
  - intro K. destruct rest; [auto|]. rewrite err_eof. auto.
  - intro K. assert (K1 : reof r1 = false) by (destruct rest; [auto|now rewrite err_eof in K]). rewrite (Q K1). destruct rest; [reflexivity|now rewrite ext_err].
Qed.
Lemma hex_sim : forall n code r, simp r (hex_loop n code r) (hex_loop n code (ext r)).
Proof.
  induction n as [|n IH]; intros code r; cbn [hex_loop]; [apply simp_ok|]. rewrite ext_rok. destruct (rok r); [|apply simp_ok].
  apply simp_let; [apply pop_sim|]. intros c r1. destruct (hexval c); [apply IH|]. rewrite ext_err.
  eapply simp_shift; [apply (err_eof (EHex c))|apply IH].
Qed.
Lemma save_code_sim code r : sim1 r (save_code code r) (save_code code (ext r)).
Proof. unfold save_code. repeat (destruct (_ <=? _); [apply sim1_ok'; reflexivity|]). apply sim1_no. discriminate. Qed.
Lemma unescape_sim r : sim1 r (unescape_unicode r) (unescape_unicode (ext r)).
Proof.
  unfold unescape_unicode. apply simp_bind1; [apply hex_sim|]. intros code r1. rewrite ext_rok. destruct (rok r1); [apply save_code_sim|apply sim1_ok].
Qed.
Lemma raw_hex_sim : forall n r, sim1 r (Ok (raw_hex_loop n r)) (Ok (raw_hex_loop n (ext r))).
Proof.
  induction n as [|n IH]; intros r; cbn [raw_hex_loop]; [apply sim1_ok|]. rewrite ext_rok. destruct (rok r); [|apply sim1_ok].
  pose proof (pop_sim r) as [P Q]. destruct (popc r) as [c r1]. cbn [fst snd] in *.
  assert (H : sim1 r1 (Ok (match hexval c with Some _ => raw_hex_loop n (save c r1) | None => raw_hex_loop n (rerror_set (EHex c) r1) end))
     (Ok (match hexval c with Some _ => raw_hex_loop n (save c (ext r1)) | None => raw_hex_loop n (rerror_set (EHex c) (ext r1)) end))).
  { destruct (hexval c); [rewrite ext_save; apply (sim1_shift r1 (save c r1)); [reflexivity|apply IH]|].
    rewrite ext_err. eapply sim1_shift; [apply (err_eof (EHex c))|apply IH]. }
  intros r' K. destruct (H _ K) as [P2 Q2]. split; [intro; auto|]. intro K2. rewrite (Q (back _ _ P2 K2)). auto.
Qed.
Lemma unicode_sim r : sim1 r (read_unicode r) (read_unicode (ext r)).
Proof.
  unfold read_unicode. cbn [ext ropt]. destruct (o_unescape (ropt r)); [apply unescape_sim|].
  rewrite !ext_save. apply (sim1_shift r (save 117 (save c_bslash r))); [reflexivity|apply raw_hex_sim].
Qed.
Lemma cont_sim : forall n code r, simp r (cont_loop n code r) (cont_loop n code (ext r)).
Proof.
  induction n as [|n IH]; intros code r; cbn [cont_loop]; [apply simp_ok|]. rewrite ext_rok. destruct (rok r); [|apply simp_ok].
  apply simp_let; [apply pop_sim|]. intros c r1. cbv zeta. rewrite ext_save, ext_err.
  destruct (N.land c 192 =? 128).
  - apply (simp_shift r1 (save c r1)); [reflexivity|apply IH].
  - apply (simp_shift r1 (rerror_set EUtf8 (save c r1))); [exact (err_eof EUtf8 (save c r1))|apply IH].
Qed.
Lemma validate_sim c r : sim1 r (validate_unicode c r) (validate_unicode c (ext r)).
Proof.
  unfold validate_unicode. cbv zeta. destruct (lead_ones c) as [b|]; [|apply sim1_no; discriminate].
  rewrite ext_save, ext_err.
  assert (E : (if (4 <? b) || (b <? 2) then ext (rerror_set (EUtf8Head c) (save c r)) else ext (save c r)) =
              ext (if (4 <? b) || (b <? 2) then rerror_set (EUtf8Head c) (save c r) else save c r)) by (destruct (_ || _); reflexivity).
  rewrite E. clear E. match goal with |- context [ext (if ?b then ?x else ?y)] => set (r1 := if b then x else y) end.
  apply (sim1_shift r r1). { unfold r1. destruct (_ || _); [exact (err_eof (EUtf8Head c) (save c r))|reflexivity]. }
  apply simp_bind1; [apply cont_sim|]. intros code r2. match goal with |- context [if ?b then Ok r2 else _] => destruct b end; [apply sim1_ok|]. rewrite ext_err. apply sim1_ok'; [apply err_eof|reflexivity].
Qed.
Lemma string_sim : forall f g r, (f <= g)%nat -> sim1 r (string_loop f r) (string_loop g (ext r)).
Proof.
  induction f as [|f IH]; intros g r Hg; [apply sim1_no; discriminate|]. destruct g as [|g]; [lia|]. cbn [string_loop]. rewrite ext_rok.
  destruct (rok r); [|rewrite ext_err; apply sim1_ok'; [apply err_eof|reflexivity]].
  apply simp_bind1; [apply pop_sim|]. intros c r1. cbn [ext ropt].
  destruct (c =? c_nl). { fold (ext r1). rewrite ext_err. eapply sim1_shift; [apply (err_eof ENewline)|]. apply IH; lia. }
  destruct (N.testbit c 7 && o_validate (ropt r1)). { apply sim1_bind1; [apply validate_sim|]. intro r2. apply IH; lia. }
  destruct (c =? c_quote); [apply sim1_ok|]. destruct (c =? c_bslash).
  - apply simp_bind1; [apply (pop_sim r1)|]. intros e r2. destruct (e =? 117).
    + apply sim1_bind1; [apply unicode_sim|]. intro r3. apply IH; lia.
    + destruct (escape_value e); [rewrite ext_save; apply (sim1_shift r2 (save b r2)); [reflexivity|apply IH; lia]|].
      rewrite ext_err. apply sim1_ok'; [apply err_eof|reflexivity].
  - fold (ext r1). rewrite ext_save. apply (sim1_shift r1 (save c r1)); [reflexivity|apply IH; lia].
Qed.
Lemma read_string_sim r : sim1 r (read_string r) (read_string (ext r)).
Proof.
  unfold read_string. rewrite ext_reset. apply (sim1_shift r (reset_buf r)); [reflexivity|apply string_sim, ext_fuel].
Qed.
Lemma digits_sim : forall f g r, (f <= g)%nat -> sim1 r (digits_loop f r) (digits_loop g (ext r)).
Proof.
  induction f as [|f IH]; intros g r Hg; [apply sim1_no; discriminate|]. destruct g as [|g]; [lia|]. cbn [digits_loop]. rewrite ext_rok.
  destruct (rok r); [|apply sim1_ok]. apply simp_bind1; [apply peek_sim|]. intros c r1. destruct (isdigit c); [|apply sim1_ok].
  apply simp_bind1; [apply pop_sim|]. intros d r2. rewrite ext_save. apply (sim1_shift r2 (save d r2)); [reflexivity|apply IH; lia].
Qed.
Lemma read_digits_sim r : sim1 r (read_digits r) (read_digits (ext r)).
Proof. apply digits_sim, ext_fuel. Qed.
Lemma read_char_sim x r : simp r (read_char x r) (read_char x (ext r)).
Proof.
  unfold read_char. rewrite ext_rok. destruct (rok r); [|apply simp_ok]. apply simp_let; [apply peek_sim|]. intros c r1.
  destruct (c =? x); [|apply simp_ok]. apply simp_let; [apply pop_sim|]. intros d r2. rewrite ext_save. apply (simp_shift r2 (save d r2)); [reflexivity|apply simp_ok].
Qed.
Lemma read_chars_sim x y r : simp r (read_chars x y r) (read_chars x y (ext r)).
Proof.
  unfold read_chars. rewrite ext_rok. destruct (rok r); [|apply simp_ok]. apply simp_let; [apply peek_sim|]. intros c r1.
  destruct (c =? x).
  - apply simp_let; [apply pop_sim|]. intros d r2. rewrite ext_save. apply (simp_shift r2 (save d r2)); [reflexivity|apply simp_ok].
  - apply simp_let; [apply peek_sim|]. intros c2 r2. destruct (c2 =? y); [|apply simp_ok].
    apply simp_let; [apply pop_sim|]. intros d r3. rewrite ext_save. apply (simp_shift r3 (save d r3)); [reflexivity|apply simp_ok].
Qed.
Lemma number_sim c r : sim r (read_number c r) (read_number c (ext r)).
Proof.
  unfold read_number. rewrite ext_reset, ext_save. apply (sim_shift r (save c (reset_buf r))); [reflexivity|].
  apply sim_bind1; [apply read_digits_sim|]. intro r1. apply simp_bind; [apply read_char_sim|]. intros dot r2.
  apply sim_bind1; [destruct dot; [apply read_digits_sim|apply sim1_ok]|]. intro r3.
  apply simp_bind; [apply read_chars_sim|]. intros ex r4. apply sim_bind1; [|intro r5; apply sim_ok].
  destruct ex; [|apply sim1_ok]. pose proof (read_chars_sim 43 45 r4) as [P Q]. destruct (read_chars 43 45 r4) as [b r5]. cbn [fst snd] in *.
  intros r' H. destruct (read_digits_sim r5 _ H) as [P2 Q2]. split; [intro; auto|]. intro K. rewrite (Q (back _ _ P2 K)). cbn [snd]. auto.
Qed.
Lemma lex_sim r : sim r (lex_token r) (lex_token (ext r)).
Proof.
  unfold lex_token. rewrite ext_rok. destruct (rok r); cbn [negb]; [|apply sim_ok].
  apply sim_bind; [apply next_char_sim, ext_fuel|]. intros c r1. rewrite ext_rok. destruct (rok r1); cbn [negb]; [|apply sim_ok].
  assert (L : forall l (t : token), sim r1 (Ok (t, read_literal l r1)) (Ok (t, read_literal l (ext r1)))).
  { intros l t a r' H. injection H as <- <-. destruct (read_literal_sim l r1 _ eq_refl) as [P Q]. split; auto. intro K. specialize (Q K). injection Q as ->. reflexivity. }
  do 6 (destruct (_ =? _); [apply sim_ok|]). do 3 (destruct (_ =? _); [apply L|]).
  destruct (_ =? _); [apply sim_bind1; [apply read_string_sim|intro; apply sim_ok]|].
  destruct (_ || _); [apply number_sim|]. rewrite ext_err. apply sim_ok'; [apply err_eof|reflexivity].
Qed.
Lemma peek_tok_sim r : sim r (peek_tok r) (peek_tok (ext r)).
Proof.
  unfold peek_tok. cbn [ext rtok]. destruct (same_type (rtok r) TNone); [|apply sim_ok].
  apply sim_bind; [apply lex_sim|]. intros t r1. apply sim_ok'; reflexivity.
Qed.
Lemma next_tok_sim r : sim r (next_tok r) (next_tok (ext r)).
Proof.
  unfold next_tok. cbn [ext rtok]. destruct (same_type (rtok r) TNone); [apply lex_sim|]. apply sim_ok'; reflexivity.
Qed.
Lemma ext_assert t x r : assert_tok t x (ext r) = ext (assert_tok t x r).
Proof. unfold assert_tok. destruct (same_type t x); [reflexivity|apply ext_err]. Qed.
Lemma assert_eof t x r : reof (assert_tok t x r) = reof r.
Proof. unfold assert_tok. destruct (same_type t x); [reflexivity|apply err_eof]. Qed.
Lemma expect_sim x r : sim r (expect_tok x r) (expect_tok x (ext r)).
Proof.
  unfold expect_tok. apply sim_bind; [apply next_tok_sim|]. intros t r1. destruct (same_type t x); [apply sim_ok|].
  rewrite ext_assert. apply sim_ok'; [apply assert_eof|reflexivity].
Qed.
Lemma null_sim r : sim1 r (parse_null r) (parse_null (ext r)).
Proof. unfold parse_null. apply sim1_bind; [apply expect_sim|]. intros _ r1. apply sim1_ok. Qed.
Lemma bool_sim r : sim r (parse_bool r) (parse_bool (ext r)).
Proof. unfold parse_bool. apply sim_bind; [apply expect_sim|]. intros t r1. apply sim_pure. intro. apply sim_ok. Qed.
Lemma int_sim r : sim r (parse_int r) (parse_int (ext r)).
Proof.
  unfold parse_int. apply sim_bind; [apply expect_sim|]. intros t r1. change (as_int t (ext r1)) with (as_int t r1). apply sim_pure. intro. apply sim_ok.
Qed.
Lemma str_sim r : sim r (parse_string r) (parse_string (ext r)).
Proof.
  unfold parse_string. apply sim_bind; [apply expect_sim|]. intros t r1. change (as_string t (ext r1)) with (as_string t r1). apply sim_pure. intro. apply sim_ok.
Qed.
Lemma float_sim r : sim r (parse_float r) (parse_float (ext r)).
Proof.
  unfold parse_float. apply sim_bind; [apply next_tok_sim|]. intros t r1. cbv zeta. rewrite ext_assert.
  assert (E : (if same_type t TInt then ext r1 else ext (assert_tok t TFloat r1)) = ext (if same_type t TInt then r1 else assert_tok t TFloat r1)) by (destruct (same_type t TInt); reflexivity).
  rewrite E. set (r2 := if same_type t TInt then r1 else _). change (as_float t (ext r2)) with (as_float t r2).
  apply (sim_shift r1 r2). { unfold r2. destruct (same_type t TInt); [reflexivity|apply assert_eof]. }
  apply sim_pure. intro. apply sim_ok.
Qed.

Lemma object_loop_sim {S : Type} (fn gn : str -> S -> reader -> outcome (S * reader)) :
  (forall k s r, sim r (fn k s r) (gn k s (ext r))) ->
  forall f g s r, (f <= g)%nat -> sim r (object_loop f fn s r) (object_loop g gn s (ext r)).
Proof.
  intro Hf. induction f as [|f IH]; intros g s r Hg; [apply sim_no; discriminate|]. destruct g as [|g]; [lia|]. cbn [object_loop]. rewrite ext_rok.
  destruct (rok r); [|apply sim_ok]. apply sim_bind; [apply expect_sim|]. intros t r1. change (as_string t (ext r1)) with (as_string t r1).
  apply sim_pure. intros _. apply sim_bind; [apply expect_sim|]. intros t2 r2. change (rbuf (ext r2)) with (rbuf r2).
  apply sim_bind; [apply Hf|]. intros s1 r3. apply sim_bind; [apply next_tok_sim|]. intros t3 r4. destruct (same_type t3 TObjE); [apply sim_ok|].
  rewrite ext_assert. eapply sim_shift; [apply (assert_eof t3 TSep)|]. apply IH; lia.
Qed.
Lemma object_sim {S : Type} (fn gn : str -> S -> reader -> outcome (S * reader)) :
  (forall k s r, sim r (fn k s r) (gn k s (ext r))) ->
  forall f g s r, (f <= g)%nat -> sim r (parse_object f fn s r) (parse_object g gn s (ext r)).
Proof.
  intros Hf f g s r Hg. unfold parse_object. apply sim_bind; [apply next_tok_sim|]. intros t r1. destruct (same_type t TNull); [apply sim_ok|].
  rewrite ext_assert. eapply sim_shift; [apply (assert_eof t TObjS)|]. apply sim_bind; [apply peek_tok_sim|]. intros t2 r2.
  destruct (same_type t2 TObjE); [|now apply object_loop_sim]. apply sim_bind; [apply expect_sim|]. intros. apply sim_ok.
Qed.
Lemma array_loop_sim {S : Type} (fn gn : nat -> S -> reader -> outcome (S * reader)) :
  (forall k s r, sim r (fn k s r) (gn k s (ext r))) ->
  forall f g i s r, (f <= g)%nat -> sim r (array_loop f fn i s r) (array_loop g gn i s (ext r)).
Proof.
  intro Hf. induction f as [|f IH]; intros g i s r Hg; [apply sim_no; discriminate|]. destruct g as [|g]; [lia|]. cbn [array_loop]. rewrite ext_rok.
  destruct (rok r); [|apply sim_ok]. apply sim_bind; [apply Hf|]. intros s1 r1. apply sim_bind; [apply next_tok_sim|]. intros t3 r4.
  destruct (same_type t3 TArrE); [apply sim_ok|]. rewrite ext_assert. eapply sim_shift; [apply (assert_eof t3 TSep)|]. apply IH; lia.
Qed.
Lemma array_sim {S : Type} (fn gn : nat -> S -> reader -> outcome (S * reader)) :
  (forall k s r, sim r (fn k s r) (gn k s (ext r))) ->
  forall f g s r, (f <= g)%nat -> sim r (parse_array f fn s r) (parse_array g gn s (ext r)).
Proof.
  intros Hf f g s r Hg. unfold parse_array. apply sim_bind; [apply next_tok_sim|]. intros t r1. destruct (same_type t TNull); [apply sim_ok|].
  rewrite ext_assert. eapply sim_shift; [apply (assert_eof t TArrS)|]. apply sim_bind; [apply peek_tok_sim|]. intros t2 r2.
  destruct (same_type t2 TArrE); [|now apply array_loop_sim]. apply sim_bind; [apply expect_sim|]. intros. apply sim_ok.
Qed.
Lemma skip_sim : forall f g r, (f <= g)%nat -> sim1 r (skip f r) (skip g (ext r)).
Proof.
  induction f as [|f IH]; intros g r Hg; [apply sim1_no; discriminate|]. destruct g as [|g]; [lia|]. cbn [skip].
  apply sim1_bind; [apply peek_tok_sim|]. intros t r1. rewrite ext_rok. destruct (rok r1); cbn [negb]; [|apply sim1_ok].
  assert (Hcb : forall (k : nat) (s : unit) (r : reader), sim r (do r' <- skip f r; Ok (tt, r')) (do r' <- skip g (ext r); Ok (tt, r'))).
  { intros k s r0. apply sim_bind1; [apply IH; lia|]. intro. apply sim_ok. }
  destruct t; try (apply sim1_no; discriminate); try (apply sim1_bind; [apply next_tok_sim|intros; apply sim1_ok]).
  - apply sim1_bind; [|intros; apply sim1_ok]. apply object_sim; [|lia]. intros. apply (Hcb 0%nat s).
  - apply sim1_bind; [|intros; apply sim1_ok]. apply array_sim; [|lia]. intros. apply (Hcb 0%nat s).
Qed.
Lemma dyn_sim : forall f g v r, (f <= g)%nat -> sim r (parse_dyn f v r) (parse_dyn g v (ext r)).
Proof.
  induction f as [|f IH]; intros g v r Hg; [apply sim_no; discriminate|]. destruct g as [|g]; [lia|]. cbn [parse_dyn].
  apply sim_bind; [apply peek_tok_sim|]. intros t r1.
  destruct t; try (rewrite ext_err; apply sim_ok'; [apply err_eof|reflexivity]).
  - apply sim_bind; [|intros; apply sim_ok]. apply object_sim; [|lia]. intros. apply sim_bind; [apply IH; lia|]. intros. apply sim_ok.
  - apply sim_bind; [|intros; apply sim_ok]. apply array_sim; [|lia]. intros. apply sim_bind; [apply IH; lia|]. intros. apply sim_ok.
  - apply sim_bind; [apply str_sim|]. intros. apply sim_ok.
  - apply sim_bind; [apply int_sim|]. intros. apply sim_ok.
  - apply sim_bind; [apply float_sim|]. intros. apply sim_ok.
  - apply sim_bind; [apply bool_sim|]. intros. apply sim_ok.
  - apply sim_bind1; [apply null_sim|]. intros. apply sim_ok.
Qed.
Lemma typed_sim : forall f g e t v r, (f <= g)%nat -> sim r (parse_t f e t v r) (parse_t g e t v (ext r)).
Proof.
  induction f as [|f IH]; intros g e t v r Hg; [apply sim_no; discriminate|]. destruct g as [|g]; [lia|]. cbn [parse_t].
  destruct (nth_error e t) as [d|]; [|apply sim_no; discriminate]. destruct d.
  - apply sim_bind; [apply bool_sim|]. intros. apply sim_ok.
  - apply sim_bind; [apply int_sim|]. intros. destruct is_int64; [apply sim_ok|apply sim_no; discriminate].
  - apply sim_bind; [apply float_sim|]. intros. destruct is_double; [apply sim_ok|apply sim_no; discriminate].
  - apply sim_bind; [apply str_sim|]. intros. apply sim_ok.
  - apply sim_bind; [apply peek_tok_sim|]. intros tk r1. destruct (same_type tk TNull).
    + apply sim_bind; [apply next_tok_sim|]. intros. apply sim_ok.
    + cbv zeta. apply sim_bind3; [apply IH; lia|]. intros p' ? r2. apply sim_ok.
  - apply sim_bind; [|intros; apply sim_ok]. apply object_sim; [|lia]. intros k s r0.
    apply sim_bind3; [apply IH; lia|].
    intros x mv r1. rewrite ext_rok. destruct (rok r1); [destruct mv; [apply sim_no; discriminate|apply sim_ok]|apply sim_ok].
  - apply sim_bind; [|intros; apply sim_ok]. apply array_sim; [|lia]. intros k s r0.
    apply sim_bind3; [apply IH; lia|].
    intros x mv r1. rewrite ext_rok. destruct (rok r1); [destruct mv; [apply sim_no; discriminate|apply sim_ok]|apply sim_ok].
  - apply sim_bind; [apply dyn_sim; lia|]. intros. apply sim_ok.
  - apply sim_bind; [|intros; apply sim_ok]. apply object_sim; [|lia]. intros k s r0. destruct (find_alias fs k) as [fd|].
    + apply sim_bind3; [apply IH; lia|]. intros x ? r1. apply sim_ok.
    + apply sim_bind1; [apply skip_sim; lia|]. intros. apply sim_ok.
Qed.
End Ext.
