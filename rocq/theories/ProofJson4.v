(* ProofJson4.v - the tokenizer on arbitrary input: it ends, only moves forward,
   keeps the first error, never aborts, and has undefined behaviour only through
   UTF-8 validation. *)
From Coq Require String. Import String.StringSyntax.
From Verif Require Import Base Dec ModelJson SpecJson ProofJson1.
Local Open Scope outcome_scope.
Local Open Scope N_scope.

(* What any operation may do to a reader. *)
Definition evolves (r r' : reader) : Prop :=
  ropt r' = ropt r /\
  (forall e, rerr r = Some e -> rerr r' = Some e) /\
  (exists c, rin r = c ++ rin r') /\
  (rfail r = true -> rfail r' = true) /\ (reof r = true -> reof r' = true).

Lemma ev_refl r : evolves r r.
Proof. repeat split; auto. exists []. reflexivity. Qed.
Lemma ev_trans a b c : evolves a b -> evolves b c -> evolves a c.
Proof.
  intros (O1 & E1 & (x & X1) & F1 & G1) (O2 & E2 & (y & Y1) & F2 & G2).
  repeat split; auto; [congruence|]. exists (x ++ y). rewrite <- app_assoc, <- Y1. exact X1.
Qed.
#[export] Hint Resolve ev_refl : core.

Lemma ev_not_ok r r' : evolves r r' -> rok r = false -> rok r' = false.
Proof.
  intros (_ & E & _ & F & _) H. unfold rok in *. destruct (rerr r) as [e|].
  - rewrite (E e eq_refl). reflexivity.
  - destruct (rfail r); [|discriminate]. rewrite F by reflexivity. destruct (rerr r'); reflexivity.
Qed.
Lemma ev_ok_back r r' : evolves r r' -> rok r' = true -> rok r = true.
Proof. intros H K. destruct (rok r) eqn:E; auto. rewrite (ev_not_ok _ _ H E) in K. discriminate. Qed.
Lemma ev_len r r' : evolves r r' -> (length (rin r') <= length (rin r))%nat.
Proof. intros (_ & _ & (c & E) & _). rewrite E, app_length. lia. Qed.
Lemma ev_opt r r' : evolves r r' -> ropt r' = ropt r.
Proof. intros (H & _); exact H. Qed.

Lemma ev_err c r : evolves r (rerror_set c r).
Proof.
  unfold rerror_set. destruct (rerr r) eqn:E; auto.
  repeat split; auto; cbn; [congruence|]. exists []. reflexivity.
Qed.
Lemma ev_save c r : evolves r (save c r).
Proof. repeat split; auto. exists []. reflexivity. Qed.
Lemma ev_reset r : evolves r (reset_buf r).
Proof. repeat split; auto. exists []. reflexivity. Qed.
Lemma ev_settok t r : evolves r (set_tok t r).
Proof. repeat split; auto. exists []. reflexivity. Qed.
Lemma ev_newline r : evolves r (newline r).
Proof. repeat split; auto. exists []. reflexivity. Qed.
#[export] Hint Resolve ev_err ev_save ev_reset ev_settok ev_newline : core.

Lemma err_not_ok c r : rok (rerror_set c r) = false.
Proof. unfold rerror_set, rok. destruct (rerr r) eqn:E; [rewrite E|]; reflexivity. Qed.

Lemma save_rok c r : rok (save c r) = rok r. Proof. reflexivity. Qed.
Lemma save_rin c r : rin (save c r) = rin r. Proof. reflexivity. Qed.
Lemma newline_rok r : rok (newline r) = rok r. Proof. reflexivity. Qed.

(* pop: one byte less, or the stream fails *)
Lemma ev_intro r r' c : ropt r' = ropt r -> rerr r' = rerr r -> rin r = c ++ rin r' ->
  (rfail r = true -> rfail r' = true) -> (reof r = true -> reof r' = true) -> evolves r r'.
Proof. intros H1 H2 H3 H4 H5. repeat split; auto; [congruence|exists c; auto]. Qed.

Lemma fail_not_ok r : rfail r = true -> rok r = false.
Proof. intro H. unfold rok. rewrite H. destruct (rerr r); reflexivity. Qed.

Lemma pop_spec r c r' : popc r = (c, r') ->
  evolves r r' /\ (rok r' = true -> rin r = c :: rin r' /\ reof r = false) /\ rtok r' = rtok r /\ rbuf r' = rbuf r.
Proof.
  unfold popc. destruct (reof r || rfail r) eqn:Eo.
  { intro H. injection H as <- <-. split; [apply (ev_intro _ _ []); auto|].
    split; [|auto]. rewrite fail_not_ok by reflexivity. discriminate. }
  apply orb_false_iff in Eo as [Eo Ef].
  destruct (rin r) as [|x s] eqn:Ei; intro H; injection H as <- <-.
  - split; [apply (ev_intro _ _ []); auto|]. split; [|auto]. rewrite fail_not_ok by reflexivity. discriminate.
  - split; [apply (ev_intro _ _ [x]); auto|]. split; auto.
Qed.

Lemma peek_spec r c r' : peekc r = (c, r') ->
  evolves r r' /\ rin r' = rin r /\ rtok r' = rtok r /\ rbuf r' = rbuf r /\
  (rok r = true -> reof r = false -> (r' = r /\ exists s, rin r = c :: s) \/ (c = c_eof /\ rin r = [] /\ reof r' = true)).
Proof.
  unfold peekc. destruct (reof r || rfail r) eqn:Eo.
  { intro H. injection H as <- <-. split; [apply (ev_intro _ _ []); auto|]. split; [auto|]. split; [auto|].
    split; [auto|]. intros Hok Hr. rewrite Hr in Eo. cbn [orb] in Eo.
    rewrite fail_not_ok in Hok by assumption. discriminate. }
  apply orb_false_iff in Eo as [Eo Ef].
  destruct (rin r) as [|x s] eqn:Ei; intro H; injection H as <- <-.
  - split; [apply (ev_intro _ _ []); auto|]. split; [auto|]. split; [auto|]. split; [auto|]. auto.
  - split; [auto|]. split; [auto|]. split; [auto|]. split; [auto|]. intros _ _. left. eauto.
Qed.

Definition m_in (r : reader) : nat := if rok r then S (length (rin r)) else 0%nat.

Lemma pop_measure r c r' : rok r = true -> popc r = (c, r') -> (m_in r' < m_in r)%nat.
Proof.
  intros Hok E. destruct (pop_spec _ _ _ E) as (Ev & Hp & _). unfold m_in. rewrite Hok.
  destruct (rok r') eqn:Ok'; [|lia]. destruct (Hp eq_refl) as [-> _]. cbn. lia.
Qed.
Lemma ev_measure r r' : evolves r r' -> (m_in r' <= m_in r)%nat.
Proof.
  intro H. unfold m_in. destruct (rok r') eqn:E'; [|lia]. rewrite (ev_ok_back _ _ H E').
  pose proof (ev_len _ _ H). lia.
Qed.
Lemma m_in_rfuel r : (m_in r < rfuel r)%nat.
Proof. unfold m_in, rfuel. destruct (rok r); lia. Qed.

(* outcomes of tokenizer functions *)
Definition fine (r : reader) (x : outcome reader) : Prop :=
  match x with
  | Ok r' => evolves r r' /\ rtok r' = rtok r
  | UB => o_validate (ropt r) = true
  | _ => False
  end.

Lemma fine_ok r : fine r (Ok r). Proof. cbn. auto. Qed.
Lemma fine_ok' r r' : evolves r r' -> rtok r' = rtok r -> fine r (Ok r'). Proof. cbn. auto. Qed.
Lemma fine_trans r r1 x : evolves r r1 -> rtok r1 = rtok r -> fine r1 x -> fine r x.
Proof.
  intros H Ht F. destruct x; cbn in *; auto.
  - destruct F as [F1 F2]. split; [eapply ev_trans; eauto|congruence].
  - rewrite <- (ev_opt _ _ H). exact F.
Qed.

Lemma rtok_err c r : rtok (rerror_set c r) = rtok r.
Proof. unfold rerror_set. destruct (rerr r); reflexivity. Qed.

Lemma skip_comment_fine : forall fuel r, (m_in r < fuel)%nat ->
  exists r', skip_comment fuel r = Ok r' /\ evolves r r' /\ rtok r' = rtok r.
Proof.
  induction fuel as [|f IH]; intros r Hf; [lia|]. cbn [skip_comment].
  destruct (rok r) eqn:Ok; [|exists r; auto]. destruct (popc r) as [c r1] eqn:E.
  destruct (pop_spec _ _ _ E) as (Ev & _ & Ht & _). pose proof (pop_measure _ _ _ Ok E).
  destruct (c =? c_nl); [exists r1; auto|].
  destruct (IH r1) as (r2 & E2 & V2 & T2); [lia|]. exists r2. split; [auto|]. split; [eapply ev_trans; eauto|congruence].
Qed.

(* nextChar ends; if the reader is still ok afterwards, at least one byte was read *)
Lemma next_char_fine : forall fuel r, (m_in r < fuel)%nat ->
  exists c r', next_char fuel r = Ok (c, r') /\ evolves r r' /\ rtok r' = rtok r /\
    (rok r = true -> rok r' = true -> (length (rin r') < length (rin r))%nat).
Proof.
  induction fuel as [|f IH]; intros r Hf; [lia|]. cbn [next_char].
  destruct (rok r) eqn:Ok; [|exists 0, r; split; [auto|]; split; [auto|]; split; [auto|]; discriminate].
  destruct (popc r) as [c r0] eqn:E.
  destruct (pop_spec _ _ _ E) as (Ev & Hp & Ht & _). pose proof (pop_measure _ _ _ Ok E) as Hm.
  set (r1 := if c =? c_nl then newline r0 else r0).
  assert (H1 : evolves r r1 /\ rtok r1 = rtok r /\ rok r1 = rok r0 /\ rin r1 = rin r0).
  { unfold r1. destruct (c =? c_nl); (split; [try (eapply ev_trans; [exact Ev|]); auto|auto]). }
  destruct H1 as (Ev1 & Ht1 & Ok1 & In1).
  assert (Hm1 : m_in r1 = m_in r0) by (unfold m_in; rewrite Ok1, In1; reflexivity).
  clearbody r1.
  assert (Hlt : forall r', evolves r1 r' -> rok r' = true -> (length (rin r') < length (rin r))%nat).
  { intros r' Hev Hok'. pose proof (ev_len _ _ Hev) as Hl. apply (ev_ok_back _ _ Hev) in Hok'.
    rewrite Ok1 in Hok'. destruct (Hp Hok') as [Hr _]. rewrite Hr. cbn. rewrite In1 in Hl. nlia. }
  destruct (isspace c).
  { destruct (IH r1) as (c' & r' & E' & V' & T' & _); [lia|]. exists c', r'. split; auto.
    split; [eapply ev_trans; eauto|]. split; [congruence|]. intros _. now apply Hlt. }
  destruct (c =? c_slash).
  2:{ exists c, r1. split; [auto|]. split; [auto|]. split; [auto|]. intros _. apply Hlt. auto. }
  destruct (peekc r1) as [d r2] eqn:Ep. destruct (peek_spec _ _ _ Ep) as (Ev2 & In2 & Ht2 & _).
  destruct (d =? c_slash).
  2:{ exists c, r2. split; auto. split; [eapply ev_trans; eauto|]. split; [congruence|]. intros _. apply Hlt. auto. }
  set (r3 := if o_comments (ropt r2) then r2 else rerror_set EComment r2).
  assert (H3 : evolves r2 r3 /\ rtok r3 = rtok r2)
    by (unfold r3; destruct (o_comments _); [auto|]; split; [auto|apply rtok_err]).
  destruct H3 as [Ev3 Ht3]. clearbody r3.
  destruct (skip_comment_fine (rfuel r3) r3 (m_in_rfuel r3)) as (r4 & E4 & Ev4 & Ht4). rewrite E4. cbn [bind].
  assert (Ev14 : evolves r1 r4) by (eapply ev_trans; [exact Ev2|]; eapply ev_trans; eauto).
  pose proof (ev_measure _ _ Ev14) as Hm4.
  destruct (IH r4) as (c' & r' & E' & V' & T' & _); [lia|]. exists c', r'. split; auto.
  assert (Ev1' : evolves r1 r') by (eapply ev_trans; eauto).
  split; [eapply ev_trans; eauto|]. split; [congruence|]. intros _. now apply Hlt.
Qed.

Lemma literal_loop_fine l : forall r, evolves r (snd (literal_loop l r)) /\ rtok (snd (literal_loop l r)) = rtok r.
Proof.
  induction l as [|x l IH]; intro r; cbn [literal_loop]; auto.
  destruct (rok r); auto. destruct (popc r) as [c r1] eqn:E.
  destruct (pop_spec _ _ _ E) as (Ev & _ & Ht & _). destruct (c =? x); cbn [snd]; auto.
  destruct (IH r1) as [V T]. split; [eapply ev_trans; eauto|congruence].
Qed.
Lemma read_literal_fine l r : evolves r (read_literal l r) /\ rtok (read_literal l r) = rtok r.
Proof.
  unfold read_literal. pose proof (literal_loop_fine l r) as [V T]. destruct (literal_loop l r) as [rest r1].
  cbn [snd] in *. destruct rest; auto. rewrite rtok_err. split; [eapply ev_trans; eauto|auto].
Qed.

Lemma hex_loop_fine n : forall code r, code < 16 ^ 4 / 16 ^ N.of_nat n ->
  (n <= 4)%nat ->
  evolves r (snd (hex_loop n code r)) /\ rtok (snd (hex_loop n code r)) = rtok r /\ fst (hex_loop n code r) < 0x10000.
Proof.
  induction n as [|n IH]; intros code r Hc Hn; cbn [hex_loop].
  - cbn [fst snd]. split; [auto|]. split; [auto|]. change (16 ^ 4 / 16 ^ N.of_nat 0) with 0x10000 in Hc. exact Hc.
  - assert (Hpow : 16 ^ 4 / 16 ^ N.of_nat n = 16 * (16 ^ 4 / 16 ^ N.of_nat (S n))).
    { assert (Hcase : (n = 0 \/ n = 1 \/ n = 2 \/ n = 3)%nat) by lia.
      destruct Hcase as [->|[->|[->| ->]]]; reflexivity. }
    destruct (rok r).
    2:{ cbn [fst snd]. split; [auto|]. split; [auto|].
        eapply N.lt_le_trans; [exact Hc|]. apply N.div_le_upper_bound; [apply N.pow_nonzero; discriminate|].
        change (16 ^ 4) with (1 * 0x10000). apply N.mul_le_mono_r. 
        assert (H := N.pow_nonzero 16 (N.of_nat (S n)) ltac:(discriminate)). lia. }
    destruct (popc r) as [c r1] eqn:E. destruct (pop_spec _ _ _ E) as (Ev & _ & Ht & _).
    destruct (hexval c) as [v|] eqn:Eh.
    + apply hexval_iff, hex_lt in Eh. rewrite (lor16 _ _ Eh).
      destruct (IH (code * 16 + v) r1) as (V & T & B); [rewrite Hpow; lia|lia|].
      split; [eapply ev_trans; eauto|]. split; [congruence|auto].
    + destruct (IH (N.shiftl code 4) (rerror_set (EHex c) r1)) as (V & T & B).
      { rewrite N.shiftl_mul_pow2, Hpow. change (2 ^ 4) with 16. lia. }
      { lia. }
      rewrite rtok_err in T.
      assert (Ev2 : evolves r (snd (hex_loop n (N.shiftl code 4) (rerror_set (EHex c) r1)))).
      { eapply ev_trans; [exact Ev|]. eapply ev_trans; [apply ev_err|]. exact V. }
      split; auto. split; [congruence|auto].
Qed.

Lemma save_code_fine code r : code < 0x10000 ->
  exists r', save_code code r = Ok r' /\ evolves r r' /\ rtok r' = rtok r /\ rin r' = rin r /\ rok r' = rok r.
Proof.
  intro Hc. unfold save_code.
  repeat match goal with
  | |- context [if ?a <=? ?b then _ else _] => destruct (N.leb_spec a b)
  end; try lia; eexists; (split; [reflexivity|]); cbn;
  (split; [repeat (eapply ev_trans; [|apply ev_save]); auto|auto]).
Qed.

Lemma raw_hex_fine n : forall r, evolves r (raw_hex_loop n r) /\ rtok (raw_hex_loop n r) = rtok r.
Proof.
  induction n as [|n IH]; intro r; cbn [raw_hex_loop]; auto. destruct (rok r); auto.
  destruct (popc r) as [c r1] eqn:E. destruct (pop_spec _ _ _ E) as (Ev & _ & Ht & _).
  destruct (hexval c).
  - destruct (IH (save c r1)) as [V T]. split; [|rewrite T; exact Ht].
    eapply ev_trans; [exact Ev|]. eapply ev_trans; [apply ev_save|exact V].
  - destruct (IH (rerror_set (EHex c) r1)) as [V T]. split; [|rewrite T, rtok_err; exact Ht].
    eapply ev_trans; [exact Ev|]. eapply ev_trans; [apply ev_err|exact V].
Qed.

Lemma read_unicode_fine r : exists r', read_unicode r = Ok r' /\ evolves r r' /\ rtok r' = rtok r.
Proof.
  unfold read_unicode. destruct (o_unescape (ropt r)).
  - unfold unescape_unicode. pose proof (hex_loop_fine 4 0 r) as H.
    destruct (hex_loop 4 0 r) as [code r1]. cbn [fst snd] in H.
    destruct H as (V & T & B); [reflexivity|lia|].
    destruct (rok r1); [|exists r1; auto].
    destruct (save_code_fine code r1 B) as (r2 & E2 & V2 & T2 & _). exists r2.
    split; [auto|]. split; [eapply ev_trans; eauto|congruence].
  - eexists; split; [reflexivity|].
    destruct (raw_hex_fine 4 (save 117 (save c_bslash r))) as [V T]. split; [|exact T].
    eapply ev_trans; [apply ev_save|]. eapply ev_trans; [apply ev_save|]. exact V.
Qed.

Lemma cont_loop_fine n : forall code r, evolves r (snd (cont_loop n code r)) /\ rtok (snd (cont_loop n code r)) = rtok r.
Proof.
  induction n as [|n IH]; intros code r; cbn [cont_loop]; auto. destruct (rok r); auto.
  destruct (popc r) as [c r1] eqn:E. destruct (pop_spec _ _ _ E) as (Ev & _ & Ht & _).
  set (r2 := if N.land c 192 =? 128 then save c r1 else rerror_set EUtf8 (save c r1)).
  assert (H2 : evolves r r2 /\ rtok r2 = rtok r).
  { unfold r2. destruct (N.land c 192 =? 128).
    - split; [eapply ev_trans; eauto|exact Ht].
    - split; [|rewrite rtok_err; exact Ht]. eapply ev_trans; [exact Ev|]. eapply ev_trans; [apply ev_save|apply ev_err]. }
  destruct H2 as [V2 T2]. destruct (IH (N.lor (N.shiftl code 6) (N.land c 63)) r2) as [V T].
  split; [eapply ev_trans; eauto|congruence].
Qed.

Lemma validate_fine c r : o_validate (ropt r) = true -> fine r (validate_unicode c r).
Proof.
  intro Hv. unfold validate_unicode. destruct (lead_ones c) as [bytes|]; [|exact Hv].
  set (r1 := if (4 <? bytes) || (bytes <? 2) then rerror_set (EUtf8Head c) (save c r) else save c r).
  assert (H1 : evolves r r1 /\ rtok r1 = rtok r).
  { unfold r1. destruct (_ || _); [rewrite rtok_err|]; (split; [|reflexivity]); auto.
    eapply ev_trans; [apply ev_save|apply ev_err]. }
  destruct H1 as [V1 T1]. clearbody r1.
  match goal with |- context [cont_loop ?n ?k r1] => pose proof (cont_loop_fine n k r1) as [V2 T2]; destruct (cont_loop n k r1) as [code r2] end.
  cbn [snd] in *.
  assert (V : evolves r r2) by (eapply ev_trans; eauto).
  match goal with |- context [if ?b then _ else _] => destruct b end; cbn; (split; [|try rewrite rtok_err; congruence]); auto.
  eapply ev_trans; [exact V|apply ev_err].
Qed.

Lemma string_loop_fine : forall fuel r, (m_in r < fuel)%nat -> fine r (string_loop fuel r).
Proof.
  induction fuel as [|f IH]; intros r Hf; [lia|]. cbn [string_loop].
  destruct (rok r) eqn:Ok; [|cbn; split; [auto|apply rtok_err]].
  destruct (popc r) as [c r1] eqn:E. destruct (pop_spec _ _ _ E) as (Ev & _ & Ht & _).
  pose proof (pop_measure _ _ _ Ok E) as Hm.
  assert (Hgo : forall r2, evolves r1 r2 -> rtok r2 = rtok r1 -> fine r (string_loop f r2)).
  { intros r2 V2 T2. eapply fine_trans; [eapply ev_trans; eauto|congruence|]. apply IH.
    pose proof (ev_measure _ _ V2). lia. }
  destruct (c =? c_nl); [apply Hgo; [auto|apply rtok_err]|].
  destruct (N.testbit c 7 && o_validate (ropt r1)) eqn:Eb.
  { apply andb_true_iff in Eb as [_ Eb]. pose proof (validate_fine c r1 Eb) as F.
    destruct (validate_unicode c r1) as [r2| | | |]; cbn in *; try contradiction.
    - destruct F as [V2 T2]. auto.
    - rewrite <- (ev_opt _ _ Ev). exact Eb. }
  destruct (c =? c_quote); [cbn; auto|].
  destruct (c =? c_bslash); [|apply Hgo; [auto|reflexivity]].
  destruct (popc r1) as [e r2] eqn:E2. destruct (pop_spec _ _ _ E2) as (Ev2 & _ & Ht2 & _).
  destruct (e =? 117).
  - destruct (read_unicode_fine r2) as (r3 & E3 & V3 & T3). rewrite E3. cbn [bind].
    apply Hgo; [eapply ev_trans; eauto|congruence].
  - destruct (escape_value e).
    + apply Hgo; [eapply ev_trans; [exact Ev2|apply ev_save]|exact Ht2].
    + cbn. split; [eapply ev_trans; [exact Ev|]; eapply ev_trans; [exact Ev2|apply ev_err]|].
      rewrite rtok_err. congruence.
Qed.

Lemma read_string_fine r : fine r (read_string r).
Proof.
  unfold read_string. eapply fine_trans; [apply ev_reset|reflexivity|]. apply string_loop_fine.
  change (rfuel r) with (rfuel (reset_buf r)). apply m_in_rfuel.
Qed.

Definition m_stream (r : reader) : nat := if rok r then S (length (rin r)) + (if reof r then 0 else 1) else 0%nat.

Lemma digits_loop_fine : forall fuel r, (m_in r < fuel)%nat ->
  exists r', digits_loop fuel r = Ok r' /\ evolves r r' /\ rtok r' = rtok r.
Proof.
  induction fuel as [|f IH]; intros r Hf; [lia|]. cbn [digits_loop].
  destruct (rok r) eqn:Ok; [|exists r; auto].
  destruct (peekc r) as [c r1] eqn:E. destruct (peek_spec _ _ _ E) as (Ev & In1 & Ht & _).
  destruct (isdigit c); [|exists r1; auto].
  destruct (popc r1) as [d r2] eqn:E2. destruct (pop_spec _ _ _ E2) as (Ev2 & _ & Ht2 & _).
  assert (Hm : (m_in r2 < m_in r)%nat).
  { destruct (rok r1) eqn:Ok1.
    - pose proof (pop_measure _ _ _ Ok1 E2). pose proof (ev_measure _ _ Ev). lia.
    - unfold m_in. rewrite (ev_not_ok _ _ Ev2 Ok1), Ok. lia. }
  destruct (IH (save d r2)) as (r3 & E3 & V3 & T3); [change (m_in (save d r2)) with (m_in r2); lia|].
  exists r3. split; auto. split; [|rewrite T3; cbn; congruence].
  eapply ev_trans; [exact Ev|]. eapply ev_trans; [exact Ev2|]. eapply ev_trans; [apply ev_save|exact V3].
Qed.
Lemma read_digits_fine r : exists r', read_digits r = Ok r' /\ evolves r r' /\ rtok r' = rtok r.
Proof. apply digits_loop_fine, m_in_rfuel. Qed.

Lemma read_char_fine x r : evolves r (snd (read_char x r)) /\ rtok (snd (read_char x r)) = rtok r.
Proof.
  unfold read_char. destruct (rok r); auto.
  destruct (peekc r) as [c r1] eqn:E. destruct (peek_spec _ _ _ E) as (Ev & _ & Ht & _).
  destruct (c =? x); auto.
  destruct (popc r1) as [d r2] eqn:E2. destruct (pop_spec _ _ _ E2) as (Ev2 & _ & Ht2 & _). cbn [snd].
  split; [|cbn; congruence]. eapply ev_trans; [exact Ev|]. eapply ev_trans; [exact Ev2|apply ev_save].
Qed.
Lemma read_chars_fine x y r : evolves r (snd (read_chars x y r)) /\ rtok (snd (read_chars x y r)) = rtok r.
Proof.
  unfold read_chars. destruct (rok r); auto.
  destruct (peekc r) as [c r1] eqn:E. destruct (peek_spec _ _ _ E) as (Ev & _ & Ht & _).
  destruct (c =? x).
  - destruct (popc r1) as [d r2] eqn:E2. destruct (pop_spec _ _ _ E2) as (Ev2 & _ & Ht2 & _). cbn [snd].
    split; [|cbn; congruence]. eapply ev_trans; [exact Ev|]. eapply ev_trans; [exact Ev2|apply ev_save].
  - destruct (peekc r1) as [c2 r1'] eqn:E'. destruct (peek_spec _ _ _ E') as (Ev' & _ & Ht' & _).
    destruct (c2 =? y); [|cbn [snd]; split; [eapply ev_trans; eauto|congruence]].
    destruct (popc r1') as [d r2] eqn:E2. destruct (pop_spec _ _ _ E2) as (Ev2 & _ & Ht2 & _). cbn [snd].
    split; [|cbn; congruence]. eapply ev_trans; [exact Ev|]. eapply ev_trans; [exact Ev'|].
    eapply ev_trans; [exact Ev2|apply ev_save].
Qed.

Lemma read_number_fine c r : exists t r', read_number c r = Ok (t, r') /\ (t = TInt \/ t = TFloat) /\
  evolves r r' /\ rtok r' = rtok r.
Proof.
  unfold read_number.
  destruct (read_digits_fine (save c (reset_buf r))) as (r1 & E1 & V1 & T1). rewrite E1. cbn [bind].
  assert (V01 : evolves r r1) by (eapply ev_trans; [apply ev_reset|]; eapply ev_trans; [apply ev_save|exact V1]).
  pose proof (read_char_fine 46 r1) as [V2 T2]. destruct (read_char 46 r1) as [dot r2]. cbn [snd] in *.
  assert (H3 : exists r3, (if dot then read_digits r2 else Ok r2) = Ok r3 /\ evolves r2 r3 /\ rtok r3 = rtok r2).
  { destruct dot; [apply read_digits_fine|exists r2; auto]. }
  destruct H3 as (r3 & E3 & V3 & T3). rewrite E3. cbn [bind].
  pose proof (read_chars_fine 101 69 r3) as [V4 T4]. destruct (read_chars 101 69 r3) as [ex r4]. cbn [snd] in *.
  assert (H5 : exists r5, (if ex then read_digits (snd (read_chars 43 45 r4)) else Ok r4) = Ok r5 /\
      evolves r4 r5 /\ rtok r5 = rtok r4).
  { destruct ex; [|exists r4; auto]. pose proof (read_chars_fine 43 45 r4) as [Va Ta].
    destruct (read_digits_fine (snd (read_chars 43 45 r4))) as (r5 & E5 & V5 & T5). exists r5.
    split; auto. split; [eapply ev_trans; eauto|congruence]. }
  destruct H5 as (r5 & E5 & V5 & T5). rewrite E5. cbn [bind].
  do 2 eexists. split; [reflexivity|]. split; [destruct (dot || ex); auto|].
  split; [|cbn in T1; congruence].
  eapply ev_trans; [exact V01|]. eapply ev_trans; [exact V2|]. eapply ev_trans; [exact V3|].
  eapply ev_trans; [exact V4|exact V5].
Qed.

(* the outcome of reading a token *)
Definition fine_tok (r : reader) (x : outcome (token * reader)) : Prop :=
  match x with
  | Ok (t, r') => evolves r r' /\ t <> TNone /\ (t = TEOS -> rok r' = false)
  | UB => o_validate (ropt r) = true
  | _ => False
  end.

(* Reading a token ends; it consumes at least one byte unless the reader is, or
   becomes, not ok; end of stream is only reported by a reader that is not ok. *)
Lemma lex_token_fine r : fine_tok r (lex_token r) /\
  forall t r', lex_token r = Ok (t, r') -> rtok r' = rtok r /\
    (rok r = true -> rok r' = true -> (length (rin r') < length (rin r))%nat).
Proof.
  unfold lex_token. destruct (rok r) eqn:Ok0; cbn [negb].
  2:{ split; [cbn; split; [auto|]; split; [discriminate|auto]|].
      intros t r' H. injection H as <- <-. split; auto. discriminate. }
  destruct (next_char_fine (rfuel r) r (m_in_rfuel r)) as (c & r1 & E1 & V1 & T1 & P1). rewrite E1. cbn [bind].
  destruct (rok r1) eqn:Ok1; cbn [negb].
  2:{ split; [cbn; split; [auto|]; split; [discriminate|auto]|].
      intros t r' H. injection H as <- <-. split; auto. congruence. }
  specialize (P1 Ok0 eq_refl).
  assert (Hsimple : forall t, t <> TNone -> t <> TEOS ->
    fine_tok r (Ok (t, r1)) /\ forall t' r', Ok (t, r1) = Ok (t', r') -> rtok r' = rtok r /\
    (true = true -> rok r' = true -> (length (rin r') < length (rin r))%nat)).
  { intros t H1 H2. split; [cbn; split; [auto|]; split; [auto|contradiction]|].
    intros t' r' H. injection H as <- <-. auto. }
  assert (Hgen : forall t r2, t <> TNone -> t <> TEOS \/ rok r2 = false -> evolves r1 r2 -> rtok r2 = rtok r1 ->
    fine_tok r (Ok (t, r2)) /\ forall t' r', Ok (t, r2) = Ok (t', r') -> rtok r' = rtok r /\
    (true = true -> rok r' = true -> (length (rin r') < length (rin r))%nat)).
  { intros t r2 H1 H2 V2 T2. split.
    - cbn. split; [eapply ev_trans; eauto|]. split; auto. tauto.
    - intros t' r' H. injection H as <- <-. split; [congruence|]. intros _ _.
      pose proof (ev_len _ _ V2). lia. }
  destruct (c =? 123); [apply Hsimple; discriminate|].
  destruct (c =? 125); [apply Hsimple; discriminate|].
  destruct (c =? 91); [apply Hsimple; discriminate|].
  destruct (c =? 93); [apply Hsimple; discriminate|].
  destruct (c =? 44); [apply Hsimple; discriminate|].
  destruct (c =? 58); [apply Hsimple; discriminate|].
  destruct (c =? 110); [apply Hgen; try discriminate; try apply read_literal_fine; left; discriminate|].
  destruct (c =? 116); [apply Hgen; try discriminate; try apply read_literal_fine; left; discriminate|].
  destruct (c =? 102); [apply Hgen; try discriminate; try apply read_literal_fine; left; discriminate|].
  destruct (c =? c_quote).
  { pose proof (read_string_fine r1) as F. destruct (read_string r1) as [r2| | | |]; cbn [bind fine] in *; try contradiction.
    - destruct F as [V2 T2]. apply Hgen; auto; try discriminate. left; discriminate.
    - split; [cbn; rewrite <- (ev_opt _ _ V1); exact F|discriminate]. }
  destruct ((c =? 45) || isdigit c).
  { destruct (read_number_fine c r1) as (t & r2 & E2 & Ht & V2 & T2). rewrite E2.
    apply Hgen; auto; destruct Ht as [->| ->]; try discriminate; left; discriminate. }
  apply Hgen; [discriminate|right; apply err_not_ok|apply ev_err|apply rtok_err].
Qed.
