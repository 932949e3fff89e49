(* ProofJson10.v - numbers at the end of the input, bad escapes, observed tokens. *)
From Coq Require String. Import String.StringSyntax.
From Verif Require Import Base Dec ModelJson ModelJsonW SpecJson ProofJson1 ProofJson2 ProofJson3 ProofJson4 ProofJson5 ProofJson6 ProofJson8 ProofJson9.
Local Open Scope outcome_scope.
Local Open Scope N_scope.

(* A reader without error that has read everything, whatever the stream state. *)
Definition Rend (o : ropts) (b : str) (t : token) (r : reader) : Prop :=
  rin r = [] /\ rerr r = None /\ rbuf r = b /\ rtok r = t /\ ropt r = o /\ reof r = true.

Lemma peek_nil o b t r : R o [] b t r -> exists r', peekc r = (c_eof, r') /\ Rend o b t r' /\ rok r' = true.
Proof. intros (p & l & ->). eexists. split; [reflexivity|]. repeat split. Qed.
Lemma peek_end o b t r : Rend o b t r -> exists r', peekc r = (c_eof, r') /\ Rend o b t r'.
Proof.
  intros (A & B & C & D & E & F). unfold peekc. rewrite F. cbn [orb]. eexists. split; [reflexivity|]. repeat split; auto.
Qed.
Lemma digits_end_end o b t fuel r : Rend o b t r -> (0 < fuel)%nat -> exists r', digits_loop fuel r = Ok r' /\ Rend o b t r'.
Proof.
  intros H Hf. destruct fuel; [lia|]. cbn [digits_loop]. destruct (rok r); [|eauto].
  destruct (peek_end _ _ _ _ H) as (r' & E & H'). rewrite E. change (isdigit c_eof) with false. cbv iota. eauto.
Qed.
Lemma digits_end o ds : forall b t r fuel, digits ds -> R o ds b t r -> (length ds < fuel)%nat ->
  exists r', digits_loop fuel r = Ok r' /\ Rend o (b ++ ds) t r'.
Proof.
  induction ds as [|d ds IH]; intros b t r fuel Hd Hr Hf; (destruct fuel as [|f]; [nlia|]); cbn [digits_loop];
    rewrite (R_ok _ _ _ _ _ Hr).
  - destruct (peek_nil _ _ _ _ Hr) as (r' & E & H' & _). rewrite E. change (isdigit c_eof) with false. cbv iota.
    rewrite app_nil_r. eauto.
  - inversion Hd as [|? ? H1 H2]; subst. rewrite (R_peek _ _ _ _ _ _ Hr).
    rewrite (proj2 (isdigit_iff d) H1). rpop Hr r1 K1.
    destruct (IH (b ++ [d]) t (save d r1) f H2) as (r' & E' & H'); [now apply R_save|cbn in Hf; nlia|].
    exists r'. split; [exact E'|]. rewrite <- app_assoc in H'. exact H'.
Qed.
Lemma read_digits_end o ds b t r : digits ds -> R o ds b t r -> exists r', read_digits r = Ok r' /\ Rend o (b ++ ds) t r'.
Proof. intros Hd Hr. unfold read_digits. eapply digits_end; eauto. unfold rfuel. rewrite (R_in _ _ _ _ _ Hr). nlia. Qed.
Lemma read_char_end o x b t r : Rend o b t r -> x <> 255 -> exists r', read_char x r = (false, r') /\ Rend o b t r'.
Proof.
  intros H Hx. unfold read_char. destruct (rok r); [|eauto]. destruct (peek_end _ _ _ _ H) as (r' & E & H'). rewrite E.
  unfold c_eof. destruct (N.eqb_spec 255 x); [congruence|]. eauto.
Qed.
Lemma read_chars_end o x y b t r : Rend o b t r -> x <> 255 -> y <> 255 -> exists r', read_chars x y r = (false, r') /\ Rend o b t r'.
Proof.
  intros H Hx Hy. unfold read_chars. destruct (rok r); [|eauto]. destruct (peek_end _ _ _ _ H) as (r' & E & H'). rewrite E.
  unfold c_eof at 1. destruct (N.eqb_spec 255 x); [congruence|].
  destruct (peek_end _ _ _ _ H') as (r2 & E2 & H2). rewrite E2.
  unfold c_eof. destruct (N.eqb_spec 255 y); [congruence|]. eauto.
Qed.

Lemma read_number_int_end o c ds b t r : digits ds -> R o ds b t r ->
  exists r', read_number c r = Ok (TInt, r') /\ Rend o (c :: ds) t r'.
Proof.
  intros Hd Hr. unfold read_number.
  apply R_reset in Hr. apply (R_save o c) in Hr.
  destruct (read_digits_end _ _ _ _ _ Hd Hr) as (r1 & E1 & K1). rewrite E1. cbn [bind].
  destruct (read_char_end _ 46 _ _ _ K1) as (r2 & E2 & K2); [discriminate|]. rewrite E2. cbn [bind].
  destruct (read_chars_end _ 101 69 _ _ _ K2) as (r3 & E3 & K3); [discriminate|discriminate|]. rewrite E3. cbn [bind orb].
  eexists. split; [reflexivity|]. exact K3.
Qed.

Lemma exp_start ex s : exp_part ex -> exists c s', ex ++ s = c :: s' /\ ~ digit_char c /\ c <> 46 /\ (c = 101 \/ c = 69).
Proof.
  intros (e & sg & ds & He & _ & _ & _ & ->). exists e, ((sg ++ ds) ++ s). cbn. split; [reflexivity|].
  unfold digit_char. split; [lia|]. split; [lia|exact He].
Qed.

Lemma exp_end o ex b t r : exp_part ex -> R o ex b t r ->
  exists r', (let (x, r4) := read_chars 101 69 r in
      do r5 <- (if x then read_digits (snd (read_chars 43 45 r4)) else Ok r4);
      Ok (x, r5)) = Ok (true, r') /\ Rend o (b ++ ex) t r'.
Proof.
  intros (e & sg & ds & He & Hsg & Hn & Hd & ->) Hr.
  destruct (read_chars_yes _ 101 69 _ _ _ _ _ Hr He) as (r4 & E4 & K4). rewrite E4.
  assert (H5 : exists r5, snd (read_chars 43 45 r4) = r5 /\ R o ds (b ++ e :: sg) t r5).
  { destruct Hsg as [->|Hsg].
    - cbn [app] in K4. destruct ds as [|d ds]; [contradiction|]. inversion Hd as [|? ? H1 H2]; subst. unfold digit_char in H1.
      rewrite (read_chars_no _ 43 45 _ _ _ _ _ K4) by lia. eauto.
    - assert (Hs : exists q, sg = [q] /\ (q = 43 \/ q = 45)) by (destruct Hsg; subst; eauto).
      destruct Hs as (q & -> & Hq). cbn [app] in K4.
      destruct (read_chars_yes _ 43 45 _ _ _ _ _ K4 Hq) as (r5 & E5 & K5). rewrite E5. exists r5. split; [reflexivity|].
      rewrite <- app_assoc in K5. exact K5. }
  destruct H5 as (r5 & -> & K5). destruct (read_digits_end _ _ _ _ _ Hd K5) as (r6 & E6 & K6). rewrite E6. cbn [bind].
  exists r6. split; [reflexivity|]. rewrite <- app_assoc in K6. exact K6.
Qed.

Lemma read_number_float_end o c ds fr ex b t r : digits ds ->
  (fr = [] \/ frac_part fr) -> (ex = [] \/ exp_part ex) -> (fr <> [] \/ ex <> []) ->
  R o (ds ++ fr ++ ex) b t r ->
  exists r', read_number c r = Ok (TFloat, r') /\ Rend o (c :: ds ++ fr ++ ex) t r'.
Proof.
  intros Hd Hf He Hne Hr. unfold read_number.
  apply R_reset in Hr. apply (R_save o c) in Hr. cbn [app] in Hr.
  destruct Hf as [->|(fs & -> & Hfn & Hfd)].
  - cbn [app] in *. destruct He as [->|He]; [tauto|].
    destruct (exp_start ex [] He) as (x & xs & Ex & Hx & Hx46 & Hxe). rewrite app_nil_r in Ex.
    rewrite Ex in Hr. destruct (read_digits_ok _ _ _ _ _ _ _ Hd Hx Hr) as (r1 & E1 & K1). rewrite E1. cbn [bind].
    rewrite (read_char_no _ _ _ _ _ _ _ K1 Hx46). cbn [bind]. rewrite <- Ex in K1.
    destruct (exp_end _ _ _ _ _ He K1) as (r2 & E2 & K2).
    destruct (read_chars 101 69 r1) as [y r4].
    apply bind_ok in E2 as (a & Ka & Eq). apply ok_inj in Eq. apply pair_equal_spec in Eq as [-> ->].
    rewrite Ka. cbn [bind orb]. eexists. split; [reflexivity|]. exact K2.
  - replace (ds ++ (46 :: fs) ++ ex) with (ds ++ 46 :: fs ++ ex) in Hr by reflexivity.
    assert (H46 : ~ digit_char 46) by (unfold digit_char; lia).
    destruct (read_digits_ok _ _ _ _ _ _ _ Hd H46 Hr) as (r1 & E1 & K1).
    rewrite E1. cbn [bind].
    destruct (read_char_yes _ _ _ _ _ _ K1) as (r2 & E2 & K2). rewrite E2.
    destruct He as [->|He].
    + assert (K2' : R o fs ((([c] ++ ds) ++ [46])) t r2) by (rewrite <- (app_nil_r fs); exact K2). clear K2. rename K2' into K2. destruct (read_digits_end _ _ _ _ _ Hfd K2) as (r3 & E3 & K3). rewrite E3. cbn [bind].
      destruct (read_chars_end _ 101 69 _ _ _ K3) as (r4 & E4 & K4); [discriminate|discriminate|]. rewrite E4. cbn [bind orb].
      eexists. split; [reflexivity|]. rewrite app_nil_r. rewrite <- !app_assoc in K4. exact K4.
    + destruct (exp_start ex [] He) as (x & xs & Ex & Hx & Hx46 & Hxe). rewrite app_nil_r in Ex.
      rewrite Ex in K2. destruct (read_digits_ok _ _ _ _ _ _ _ Hfd Hx K2) as (r3 & E3 & K3). rewrite E3. cbn [bind].
      rewrite <- Ex in K3. destruct (exp_end _ _ _ _ _ He K3) as (r5 & E5 & K5).
      destruct (read_chars 101 69 r3) as [y r4].
      apply bind_ok in E5 as (a & Ka & Eq). apply ok_inj in Eq. apply pair_equal_spec in Eq as [-> ->].
      rewrite Ka. cbn [bind orb]. eexists. split; [reflexivity|]. rewrite <- !app_assoc in K5. exact K5.
Qed.

(* a number that ends the input: the right token, no error, everything read *)
Lemma lex_num_end o w t x b r : blank (dia o) w -> tok_text (dia o) t x -> is_num t -> R o (w ++ x) b TNone r ->
  exists r' b', lex_token r = Ok (tok_of t, r') /\ Rend o b' TNone r' /\ payload t b'.
Proof.
  intros Hw Ht Hn Hr. unfold lex_token. rewrite (R_ok _ _ _ _ _ Hr). cbn [negb].
  assert (Hx : exists c xs, x = c :: xs /\ (c = 45 \/ digit_char c)).
  { destruct Ht; try contradiction.
    - destruct (int_text_inv _ _ H) as (c & ds & -> & Hc & _). eauto.
    - destruct (float_text_inv _ H) as (c & ds & fr & ex & -> & Hc & _). eauto. }
  destruct Hx as (c & xs & -> & Hc).
  destruct (not_space_num c Hc) as (S1 & S2 & q1 & q2 & q3 & q4 & q5 & q6 & q7 & q8 & q9 & q10 & q11).
  destruct (next_char_ok o w Hw c xs b TNone r (rfuel r)) as (r1 & E1 & K1); auto; try contradiction.
  { unfold rfuel. rewrite (R_in _ _ _ _ _ Hr), app_length. nlia. }
  rewrite E1. cbn [bind]. rewrite (R_ok _ _ _ _ _ K1). cbn [negb].
  rewrite q1, q2, q3, q4, q5, q6, q7, q8, q9, q10, q11.
  inversion Ht; subst; try contradiction.
  - match goal with H : int_text _ _ |- _ => pose proof (int_text_inv _ _ H) as (c' & ds & E & _ & Hd); rename H into Hit end.
    apply cons_inv in E as [<- <-]. destruct (read_number_int_end o c xs b TNone r1 Hd K1) as (r2 & E2 & K2).
    exists r2, (c :: xs). rewrite E2. split; [reflexivity|]. split; [exact K2|exact Hit].
  - match goal with H : float_text _ |- _ => pose proof (float_text_inv _ H) as (c' & ds & fr & ex & E & _ & Hd & Hfr & Hex & Hne) end.
    apply cons_inv in E as [<- ->].
    destruct (read_number_float_end o c ds fr ex b TNone r1 Hd Hfr Hex Hne K1) as (r2 & E2 & K2).
    exists r2, (c :: ds ++ fr ++ ex). rewrite E2. split; [reflexivity|]. split; [exact K2|reflexivity].
Qed.

(* ---- the loop of readString on a prefix that spells something ---- *)
Lemma string_loop_prefix o v x : spells (dia o) v x -> forall s b t r fuel,
  R o (x ++ s) b t r -> (length x < fuel)%nat ->
  exists r' f, string_loop fuel r = string_loop f r' /\ R o s (b ++ v) t r' /\ (fuel <= f + length x)%nat /\ (f <= fuel)%nat.
Proof.
  induction 1 as [|v x vs xs H1 Hs IH]; intros s b t r fuel Hr Hf.
  { exists r, fuel. rewrite app_nil_r. cbn. repeat split; auto. lia. }
  destruct fuel as [|fuel]; [nlia|].
  rewrite <- app_assoc in Hr. rewrite app_length in *.
  assert (Hgo : forall r2, R o (xs ++ s) (b ++ v) t r2 -> (0 < length x)%nat ->
    exists r' f, string_loop fuel r2 = string_loop f r' /\ R o s (b ++ v ++ vs) t r' /\
      (S fuel <= f + (length x + length xs))%nat /\ (f <= S fuel)%nat).
  { intros r2 H2 Hx. rewrite app_assoc. destruct (IH s (b ++ v) t r2 fuel H2) as (r' & f & E & R' & L1 & L2); [nlia|].
    exists r', f. repeat split; auto; nlia. }
  cbn [string_loop]. rewrite (R_ok _ _ _ _ _ Hr).
  assert (Hopt : forall r1 s b', R o s b' t r1 -> ropt r1 = o) by (intros; eapply R_opt; eauto).
  assert (Hesc : forall e c, v = [c] -> x = [92; e] -> (e =? 117) = false -> escape_value e = Some c ->
    exists r' f, (let (c0, r1) := popc r in
      if c0 =? c_nl then string_loop fuel (rerror_set ENewline r1)
      else if N.testbit c0 7 && o_validate (ropt r1) then
        do r2 <- validate_unicode c0 r1; string_loop fuel r2
      else if c0 =? c_quote then Ok r1
      else if c0 =? c_bslash then
        let (e, r2) := popc r1 in
        if e =? 117 then do r3 <- read_unicode r2; string_loop fuel r3
        else match escape_value e with
             | Some v => string_loop fuel (save v r2)
             | None => Ok (rerror_set (EEscape e) r2)
             end
      else string_loop fuel (save c0 r1)) = string_loop f r' /\ R o s (b ++ v ++ vs) t r' /\
      (S fuel <= f + (length x + length xs))%nat /\ (f <= S fuel)%nat).
  { intros e c -> -> He Hv. cbn [app] in Hr. rpop Hr r1 K1.
    change (92 =? c_nl) with false. change (N.testbit 92 7) with false. cbn [andb].
    change (92 =? c_quote) with false. change (92 =? c_bslash) with true. cbv iota.
    rpop K1 r2 K2. rewrite He, Hv. apply Hgo; [now apply R_save|cbn; lia]. }
  destruct H1 as [c Hc Hn Hq Hb | sm Hd Hm | c Hd Hc | | | | | | | | |
                  a1 a2 a3 a4 v1 v2 v3 v4 Hd D1 D2 D3 D4 | a1 a2 a3 a4 v1 v2 v3 v4 Hd D1 D2 D3 D4];
    try (eapply Hesc; reflexivity).
  - cbn [app] in Hr. rpop Hr r1 K1.
    destruct (N.eqb_spec c c_nl); [contradiction|].
    rewrite testbit7 by lia. destruct (N.leb_spec 128 c); [lia|]. cbn [andb].
    destruct (N.eqb_spec c c_quote); [contradiction|].
    destruct (N.eqb_spec c c_bslash); [contradiction|].
    apply Hgo; [now apply R_save|cbn; lia].
  - pose proof Hm as (cp & Hcp & Es). destruct (utf8_head cp Hcp) as (c & s' & E' & Hc).
    rewrite E' in Es. subst sm. cbn [app] in Hr. rpop Hr r1 K1.
    destruct (N.eqb_spec c c_nl); [unfold c_nl in *; lia|].
    rewrite testbit7 by lia. destruct (N.leb_spec 128 c); [|lia].
    rewrite (R_opt _ _ _ _ _ K1). cbn [dia d_validate] in Hd. rewrite Hd. cbn [andb].
    destruct (validate_ok o s' (xs ++ s) b t r1 c Hm K1) as (_ & r2 & E2 & K2).
    rewrite E2. cbn [bind]. apply Hgo; [exact K2|cbn; lia].
  - cbn [app] in Hr. rpop Hr r1 K1.
    destruct (N.eqb_spec c c_nl); [unfold c_nl in *; lia|].
    rewrite (R_opt _ _ _ _ _ K1). cbn [dia d_validate] in Hd. rewrite Hd, andb_false_r.
    destruct (N.eqb_spec c c_quote); [unfold c_quote in *; lia|].
    destruct (N.eqb_spec c c_bslash); [unfold c_bslash in *; lia|].
    apply Hgo; [now apply R_save|cbn; lia].
  - cbn [app] in Hr. rpop Hr r1 K1.
    change (92 =? c_nl) with false. change (N.testbit 92 7) with false. cbn [andb].
    change (92 =? c_quote) with false. change (92 =? c_bslash) with true. cbv iota.
    rpop K1 r2 K2. change (117 =? 117) with true. cbv iota.
    unfold read_unicode. rewrite (R_opt _ _ _ _ _ K2). cbn [dia d_unescape] in Hd. rewrite Hd.
    unfold unescape_unicode.
    destruct (hex_loop_ok o _ _ _ _ _ _ _ _ _ _ _ _ D1 D2 D3 D4 K2) as (r3 & E3 & K3).
    rewrite E3, (R_ok _ _ _ _ _ K3).
    pose proof (hex_lt _ _ D1). pose proof (hex_lt _ _ D2).
    pose proof (hex_lt _ _ D3). pose proof (hex_lt _ _ D4).
    destruct (save_code_ok o (v1 * 4096 + v2 * 256 + v3 * 16 + v4) _ _ _ _ ltac:(lia) K3) as (r4 & E4 & K4).
    rewrite E4. cbn [bind]. apply Hgo; [exact K4|cbn; lia].
  - cbn [app] in Hr. rpop Hr r1 K1.
    change (92 =? c_nl) with false. change (N.testbit 92 7) with false. cbn [andb].
    change (92 =? c_quote) with false. change (92 =? c_bslash) with true. cbv iota.
    rpop K1 r2 K2. change (117 =? 117) with true. cbv iota.
    unfold read_unicode. rewrite (R_opt _ _ _ _ _ K2). cbn [dia d_unescape] in Hd. rewrite Hd.
    cbn [bind].
    apply (R_save o c_bslash) in K2. apply (R_save o 117) in K2.
    pose proof (raw_hex_ok o _ _ _ _ _ _ _ _ _ _ _ _ D1 D2 D3 D4 K2) as K3.
    rewrite <- !app_assoc in K3. apply Hgo; [exact K3|cbn; lia].
Qed.

(* an escape whose k-th digit is not one *)
Lemma hexval_none c : (forall v, ~ hex_digit c v) -> hexval c = None.
Proof. intro H. destruct (hexval c) as [v|] eqn:E; auto. apply hexval_iff in E. destruct (H v E). Qed.
Lemma err_cause_set c r : rerr r = None -> exists e, rerr (rerror_set c r) = Some e /\ err_cause e = c.
Proof. intro H. unfold rerror_set. rewrite H. cbn. eauto. Qed.

Lemma hex_loop_stop n code r : rok r = false -> hex_loop n code r = (code, r).
Proof. destruct n; cbn [hex_loop]; auto. intros ->. reflexivity. Qed.
Lemma raw_hex_stop n r : rok r = false -> raw_hex_loop n r = r.
Proof. destruct n; cbn [raw_hex_loop]; auto. intros ->. reflexivity. Qed.

Lemma hex_loop_bad o h : forall c s n code b t r,
  (forall x, In x h -> exists v, hex_digit x v) -> (forall v, ~ hex_digit c v) -> (length h < n)%nat ->
  R o (h ++ c :: s) b t r -> exists code' r' e, hex_loop n code r = (code', r') /\ rerr r' = Some e /\ err_cause e = EHex c.
Proof.
  induction h as [|x h IH]; intros c s n code b t r Hh Hc Hn Hr; (destruct n as [|n]; [cbn in Hn; lia|]);
    cbn [hex_loop app] in *; rewrite (R_ok _ _ _ _ _ Hr).
  - rpop Hr r1 K1. rewrite (hexval_none c Hc).
    destruct K1 as (p & l & ->). rewrite hex_loop_stop by apply err_not_ok. do 3 eexists. split; [reflexivity|].
    split; reflexivity.
  - rpop Hr r1 K1. destruct (Hh x) as [v Hv]; [now left|]. apply hexval_iff in Hv. rewrite Hv.
    eapply IH; eauto. { intros y Hy. apply Hh. now right. } cbn in Hn. nlia.
Qed.
Lemma raw_hex_bad o h : forall c s n b t r,
  (forall x, In x h -> exists v, hex_digit x v) -> (forall v, ~ hex_digit c v) -> (length h < n)%nat ->
  R o (h ++ c :: s) b t r -> exists e, rerr (raw_hex_loop n r) = Some e /\ err_cause e = EHex c.
Proof.
  induction h as [|x h IH]; intros c s n b t r Hh Hc Hn Hr; (destruct n as [|n]; [cbn in Hn; lia|]);
    cbn [raw_hex_loop app] in *; rewrite (R_ok _ _ _ _ _ Hr).
  - rpop Hr r1 K1. rewrite (hexval_none c Hc).
    destruct K1 as (p & l & ->). rewrite raw_hex_stop by apply err_not_ok. eexists. split; reflexivity.
  - rpop Hr r1 K1. destruct (Hh x) as [v Hv]; [now left|]. apply hexval_iff in Hv. rewrite Hv.
    eapply IH; [| | |eapply R_save; exact K1]; eauto. { intros y Hy. apply Hh. now right. } cbn in Hn. nlia.
Qed.

Lemma rok_err_false r e : rerr r = Some e -> rok r = false.
Proof. unfold rok. intros ->. reflexivity. Qed.
Lemma err_keep c r e : rerr r = Some e -> rerror_set c r = r.
Proof. unfold rerror_set. intros ->. reflexivity. Qed.

Lemma bad_escape o v x h c s b t r : spells (dia o) v x ->
  (forall y, In y h -> exists w, hex_digit y w) -> (forall w, ~ hex_digit c w) -> (length h < 4)%nat ->
  R o (x ++ [92; 117] ++ h ++ c :: s) b t r ->
  exists r' e, read_string r = Ok r' /\ rerr r' = Some e /\ err_cause e = EHex c.
Proof.
  intros Hs Hh Hc Hl Hr. unfold read_string. pose proof (R_in _ _ _ _ _ Hr) as Hin. apply R_reset in Hr.
  assert (Lf : (length x + 3 < rfuel r)%nat).
  { unfold rfuel. rewrite Hin, !app_length. cbn [length]. nlia. }
  destruct (string_loop_prefix o v x Hs _ _ _ _ (rfuel r) Hr) as (r1 & f & E1 & K1 & L1 & L2); [nlia|].
  rewrite E1. destruct f as [|f]; [nlia|]. cbn [string_loop]. rewrite (R_ok _ _ _ _ _ K1). cbn [app] in K1.
  rpop K1 r2 K2. change (92 =? c_nl) with false. change (N.testbit 92 7) with false. cbn [andb].
  change (92 =? c_quote) with false. change (92 =? c_bslash) with true. cbv iota.
  rpop K2 r3 K3. change (117 =? 117) with true. cbv iota. unfold read_unicode, unescape_unicode.
  rewrite (R_opt _ _ _ _ _ K3). destruct (o_unescape o).
  - destruct (hex_loop_bad o h c s 4 0 _ _ _ Hh Hc Hl K3) as (code & r4 & e & E4 & Er & Ec). rewrite E4.
    rewrite (rok_err_false _ _ Er). cbn [bind]. rewrite string_loop_not_ok by (eauto using rok_err_false || nlia).
    rewrite (err_keep _ _ _ Er). eauto.
  - apply (R_save o c_bslash) in K3. apply (R_save o 117) in K3.
    destruct (raw_hex_bad o h c s 4 _ _ _ Hh Hc Hl K3) as (e & Er & Ec). cbn [bind].
    rewrite string_loop_not_ok by (eauto using rok_err_false || nlia). rewrite (err_keep _ _ _ Er). eauto.
Qed.

(* a string token at the start of the input *)
Lemma lex_string o w r s b : blank (dia o) w -> R o (w ++ 34 :: s) b TNone r ->
  exists r1, R o s b TNone r1 /\ lex_token r = (do r2 <- read_string r1; Ok (TStr, r2)).
Proof.
  intros Hw Hr. unfold lex_token. rewrite (R_ok _ _ _ _ _ Hr). cbn [negb].
  destruct (next_char_ok o w Hw 34 s b TNone r (rfuel r)) as (r1 & E1 & K1); auto; try discriminate.
  { unfold rfuel. rewrite (R_in _ _ _ _ _ Hr), app_length. nlia. }
  exists r1. split; [exact K1|]. rewrite E1. cbn [bind]. rewrite (R_ok _ _ _ _ _ K1). reflexivity.
Qed.
