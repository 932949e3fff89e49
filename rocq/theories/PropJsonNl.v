(* PropJsonNl.v - C38: with validation, a text that ends with a newline and has no byte
   0xFF is read into tokens without undefined behaviour. *)
From Verif Require Import Base ModelJson SpecJson ProofJson1 ProofJson4 ProofJson5 PropJsonTok.
Local Open Scope N_scope.
Local Open Scope outcome_scope.

Definition ends_nl (s : str) : Prop := exists z, s = z ++ [10].
Definition live (r : reader) : Prop := rok r = true -> reof r = false /\ ends_nl (rin r).
Definition lowb (s : str) : Prop := Forall (fun c => c < 255) s.

Lemma ends_tail c s : ends_nl (c :: s) -> c <> 10 -> ends_nl s.
Proof. intros (z & E) N. destruct z as [|x z]; cbn in E; injection E as -> ->; [congruence|]. now exists z. Qed.
Lemma live_dead r : rok r = false -> live r.
Proof. intros E Q. congruence. Qed.
Lemma live_err c r : live (rerror_set c r).
Proof. apply live_dead, err_not_ok. Qed.
Lemma live_pop r c r' : live r -> rok r = true -> popc r = (c, r') -> (c = 10 -> rok r' = false) -> live r'.
Proof.
  intros L R P N Ok'. destruct (pop_spec _ _ _ P) as (V & Q & _). destruct (Q Ok') as (E & _). destruct (L R) as (Eo & En).
  assert (Nc : c <> 10) by (intros ->; rewrite N in Ok' by reflexivity; discriminate).
  split; [|rewrite E in En; eapply ends_tail; eauto]. unfold popc in P. rewrite Eo in P. cbn [orb] in P. destruct (rfail r); [now injection P as _ <-|].
  destruct (rin r); injection P as _ <-; [discriminate|reflexivity].
Qed.
Lemma live_save c r : live r -> live (save c r).
Proof. auto. Qed.
Lemma low_ev r r' : evolves r r' -> lowb (rin r) -> lowb (rin r').
Proof. intros (_ & _ & (c & E) & _) L. rewrite E in L. apply Forall_app in L. tauto. Qed.
Lemma live_err_of r c r' k : live r -> rok r = true -> popc r = (c, r') -> c <> 10 \/ True -> live (rerror_set k r').
Proof. intros. apply live_err. Qed.

Lemma hex_live n : forall code r, live r -> live (snd (hex_loop n code r)).
Proof.
  induction n as [|n IH]; intros code r L; cbn [hex_loop]; auto. destruct (rok r) eqn:R; auto. destruct (popc r) as [c r1] eqn:P.
  destruct (hexval c) eqn:Hc; apply IH; [|apply live_err]. eapply live_pop; eauto. intros ->. discriminate.
Qed.
Lemma raw_hex_live n : forall r, live r -> live (raw_hex_loop n r).
Proof.
  induction n as [|n IH]; intros r L; cbn [raw_hex_loop]; auto. destruct (rok r) eqn:R; auto. destruct (popc r) as [c r1] eqn:P.
  destruct (hexval c) eqn:Hc; apply IH; [|apply live_err]. apply live_save. eapply live_pop; eauto. intros ->. discriminate.
Qed.
Lemma cont_live n : forall code r, live r -> live (snd (cont_loop n code r)).
Proof.
  induction n as [|n IH]; intros code r L; cbn [cont_loop]; auto. destruct (rok r) eqn:R; auto. destruct (popc r) as [c r1] eqn:P.
  apply IH. destruct (N.land c 0xC0 =? 0x80) eqn:Hc; [|apply live_err]. apply live_save. eapply live_pop; eauto. intros ->. discriminate.
Qed.
Lemma save_code_live code r r' : save_code code r = Ok r' -> live r -> live r'.
Proof. unfold save_code. repeat (destruct (_ <=? _); [intro E; injection E as <-; auto|]). discriminate. Qed.
Lemma unicode_live r r' : read_unicode r = Ok r' -> live r -> live r'.
Proof.
  unfold read_unicode, unescape_unicode. intros E L. destruct (o_unescape (ropt r)).
  - pose proof (hex_live 4 0 r L) as K. destruct (hex_loop 4 0 r) as [code r1]. cbn [snd] in K. destruct (rok r1); [|now injection E as <-].
    eapply save_code_live; eauto.
  - assert (E2 : r' = raw_hex_loop 4 (save 117 (save c_bslash r))) by congruence. rewrite E2. apply raw_hex_live, live_save, live_save, L.
Qed.
Lemma validate_live c r : c < 255 -> live r -> exists r', validate_unicode c r = Ok r' /\ live r'.
Proof.
  intros B L. unfold validate_unicode. assert (exists b, lead_ones c = Some b) as (b & ->).
  { unfold lead_ones, clz8. destruct (N.eqb_spec (255 - c) 0); [lia|eauto]. }
  set (r1 := if (4 <? b) || (b <? 2) then rerror_set (EUtf8Head c) (save c r) else save c r).
  assert (L1 : live r1) by (unfold r1; destruct ((4 <? b) || (b <? 2))%bool; [apply live_err|exact L]).
  match goal with |- context [cont_loop ?n ?k r1] => pose proof (cont_live n k r1 L1) as K; destruct (cont_loop n k r1) as [code r2] end. cbn [snd] in K.
  match goal with |- context [if ?q then Ok r2 else _] => destruct q end; eexists; (split; [reflexivity|]); auto using live_err.
Qed.
Lemma string_live : forall fuel r, live r -> lowb (rin r) -> string_loop fuel r <> UB.
Proof.
  induction fuel as [|f IH]; intros r L B; cbn [string_loop]; [discriminate|]. destruct (rok r) eqn:R; [|discriminate].
  destruct (popc r) as [c r1] eqn:P. destruct (L R) as (Eo & (z & En)).
  assert (Bc : c < 255).
  { unfold popc in P. rewrite Eo in P. unfold rok in R. destruct (rerr r); [discriminate|]. apply negb_true_iff in R. rewrite R in P. cbn [orb] in P.
    destruct (rin r) as [|x s] eqn:Ei; [destruct z; discriminate|]. injection P as <- _. now inversion B. }
  destruct (pop_spec _ _ _ P) as (V1 & _). pose proof (low_ev _ _ V1 B) as B1.
  destruct (N.eqb_spec c c_nl) as [->|Nc].
  { apply IH; [apply live_err|]. eapply low_ev; [apply ev_err|exact B1]. }
  assert (L1 : live r1) by (eapply live_pop; eauto; intro; subst; exfalso; apply Nc; reflexivity).
  destruct (N.testbit c 7 && o_validate (ropt r1)) eqn:Tb.
  { destruct (validate_live c r1 Bc L1) as (r2 & E2 & L2). apply andb_prop in Tb as [_ Ho]. pose proof (validate_fine c r1 Ho) as F. rewrite E2 in F |- *. cbn [bind].
    apply IH; auto. eapply low_ev; [apply F|exact B1]. }
  destruct (c =? c_quote); [discriminate|]. destruct (c =? c_bslash).
  - destruct (popc r1) as [e r2] eqn:P2. destruct (pop_spec _ _ _ P2) as (V2 & _). pose proof (low_ev _ _ V2 B1) as B2.
    assert (L2 : e <> 10 -> live r2).
    { intro Ne. destruct (rok r1) eqn:R1; [eapply live_pop; eauto; congruence|]. apply live_dead. eapply ev_not_ok; eauto. }
    destruct (e =? 117) eqn:E117.
    + apply N.eqb_eq in E117. destruct (read_unicode_fine r2) as (r3 & E3 & V3 & _). rewrite E3. cbn [bind]. apply IH; [|eapply low_ev; eauto].
      eapply unicode_live; eauto. apply L2. subst e. discriminate.
    + destruct (escape_value e) eqn:Ee; [|discriminate]. apply IH; [|exact B2]. apply live_save, L2. intros ->. discriminate.
  - apply IH; auto.
Qed.

(* a suffix of the text *)
Definition part (s : str) : Prop := s = [] \/ ends_nl s.
Lemma part_suffix c s : part (c ++ s) -> part s.
Proof.
  intros [E|(z & E)]; [left; now apply app_eq_nil in E|]. destruct s as [|x s] using rev_ind; [now left|]. right. rewrite app_assoc in E.
  apply app_inj_tail in E as [_ ->]. now exists s.
Qed.
Lemma part_ev r r' : evolves r r' -> part (rin r) -> part (rin r').
Proof. intros (_ & _ & (c & E) & _) H. rewrite E in H. eapply part_suffix; eauto. Qed.
Lemma next_char_live : forall fuel r c r1, part (rin r) -> next_char fuel r = Ok (c, r1) -> c = 34 -> live r1.
Proof.
  induction fuel as [|f IH]; intros r c r1 Hp E Hc; cbn [next_char] in E; [discriminate|]. destruct (rok r) eqn:R; [|injection E as <- <-; discriminate].
  destruct (popc r) as [d r0] eqn:P. destruct (pop_spec _ _ _ P) as (V & Q & _).
  set (r1' := if d =? c_nl then newline r0 else r0) in E.
  assert (V1 : evolves r r1') by (unfold r1'; destruct (d =? c_nl); [eapply ev_trans; [exact V|apply ev_newline]|exact V]).
  pose proof (part_ev _ _ V1 Hp) as Hp1.
  destruct (isspace d); [eapply IH; [|exact E|exact Hc]; auto|].
  destruct (d =? c_slash) eqn:Sl.
  - destruct (peekc r1') as [g r2] eqn:Pk. destruct (peek_spec _ _ _ Pk) as (V2 & _). destruct (g =? c_slash).
    + set (r3 := if o_comments (ropt r2) then r2 else rerror_set EComment r2) in E.
      assert (V3 : evolves r2 r3) by (unfold r3; destruct (o_comments (ropt r2)); [apply ev_refl|apply ev_err]).
      destruct (skip_comment_fine (rfuel r3) r3 (m_in_rfuel r3)) as (r4 & E4 & V4 & _). rewrite E4 in E. cbn [bind] in E.
      eapply IH; [|exact E|exact Hc]. eapply part_ev; [exact V4|]. eapply part_ev; [exact V3|]. eapply part_ev; eauto.
    + injection E as <- _. apply N.eqb_eq in Sl. subst. discriminate.
  - injection E as Ed Er. assert (Er1 : r1 = r0) by (rewrite <- Er; unfold r1'; rewrite Ed, Hc; reflexivity). rewrite Er1. rewrite Ed, Hc in P, Q.
    intro Ok'. destruct (Q Ok') as (Ei & Eo). split.
    + unfold popc in P. rewrite Eo in P. cbn [orb] in P. destruct (rfail r); [discriminate P|]. destruct (rin r); [discriminate P|]. injection P as _ <-. reflexivity.
    + rewrite Ei in Hp. destruct Hp as [Hp|(z & Hp)]; [discriminate|]. apply (ends_tail 34); [exists z; exact Hp|discriminate].
Qed.
Lemma lex_live r : part (rin r) -> lowb (rin r) -> lex_token r <> UB.
Proof.
  intros Hp B. unfold lex_token. destruct (rok r); cbn [negb]; [|discriminate].
  destruct (next_char_fine (rfuel r) r (m_in_rfuel r)) as (c & r1 & E1 & V1 & _). rewrite E1. cbn [bind].
  destruct (rok r1); cbn [negb]; [|discriminate].
  repeat (match goal with |- (if c =? c_quote then _ else _) <> UB => fail 1 | |- (if c =? ?k then _ else _) <> UB => destruct (c =? k); [discriminate|] end).
  destruct (N.eqb_spec c c_quote) as [->|_].
  - pose proof (next_char_live _ _ _ _ Hp E1 eq_refl) as L1. pose proof (low_ev _ _ V1 B) as B1.
    unfold read_string. assert (K : string_loop (rfuel r1) (reset_buf r1) <> UB) by (apply string_live; auto).
    destruct (string_loop (rfuel r1) (reset_buf r1)); cbn [bind]; congruence.
  - destruct (_ || _)%bool; [|discriminate]. destruct (read_number_fine c r1) as (t & r2 & E2 & _). rewrite E2. discriminate.
Qed.

(* ==== C38 ==== *)
(* With validation: taking, peeking at or expecting a token gives a token, an error object
   or undefined behaviour ... *)
Theorem c38_validating_outcomes : forall r : reader,
  ((exists t r', next_tok r = Ok (t, r')) \/ next_tok r = UB) /\
  ((exists t r', peek_tok r = Ok (t, r')) \/ peek_tok r = UB) /\
  (forall exp, (exists t r', expect_tok exp r = Ok (t, r')) \/ expect_tok exp r = UB).
Proof.
  intro r. destruct (c38_token_layer_validating r) as [(t & r' & E)|E].
  - split; [eauto|]. split.
    + unfold peek_tok. unfold next_tok in E. destruct (same_type (rtok r) TNone); eauto. rewrite E. cbn [bind]. eauto.
    + intro exp. unfold expect_tok. rewrite E. cbn [bind]. destruct (same_type t exp); eauto.
  - split; [auto|]. split.
    + unfold peek_tok. unfold next_tok in E. destruct (same_type (rtok r) TNone); [|discriminate]. rewrite E. auto.
    + intro exp. unfold expect_tok. rewrite E. auto.
Qed.
Print Assumptions c38_validating_outcomes.

(* ... and never undefined behaviour on a text of bytes other than 0xFF that ends with a
   newline, wherever in the text the reader is. *)
Theorem c38_lines_total : forall (o : ropts) (s : str) (r : reader),
  Forall (fun c => c < 255) s -> (exists z, s = z ++ [10]) -> uses (reader_init o s) r ->
  (exists t r', next_tok r = Ok (t, r')) /\
  (exists t r', peek_tok r = Ok (t, r')) /\
  (forall exp, exists t r', expect_tok exp r = Ok (t, r')).
Proof.
  intros o s r B En U. pose proof (rs_evolves _ _ (uses_rsteps _ _ U)) as V.
  assert (K : lex_token r <> UB).
  { apply lex_live; [eapply part_ev; [exact V|]; right; exact En|eapply low_ev; [exact V|exact B]]. }
  destruct (c38_validating_outcomes r) as (A1 & A2 & A3).
  assert (N1 : next_tok r <> UB) by (unfold next_tok; destruct (same_type (rtok r) TNone); [exact K|discriminate]).
  assert (N2 : peek_tok r <> UB).
  { unfold peek_tok. destruct (same_type (rtok r) TNone); [|discriminate]. destruct (lex_token r) as [[t r']| | | |]; cbn [bind]; congruence. }
  split; [destruct A1; [auto|contradiction]|]. split; [destruct A2; [auto|contradiction]|]. intro exp. destruct (A3 exp) as [|E]; auto. exfalso.
  unfold expect_tok in E. destruct (next_tok r) as [[t r']| | | |]; cbn [bind] in E; try congruence. destruct (same_type t exp); discriminate.
Qed.
Print Assumptions c38_lines_total.
(* the last byte matters: without the newline the same string is undefined behaviour *)
Example c38_lines_ex :
  next_tok (reader_init ropts_default [34; 97; 10]) <> UB /\ next_tok (reader_init ropts_default [34; 97]) = UB /\
  exists t r, next_tok (reader_init ropts_default [34; 97; 10]) = Ok (t, r) /\ rerr r <> None.
Proof. split; [discriminate|]. split; [reflexivity|]. eexists. eexists. split; [reflexivity|discriminate]. Qed.
