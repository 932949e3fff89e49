(* ProofJson2.v - strings, numbers and whole tokens on well formed input. *)
From Coq Require String. Import String.StringSyntax.
From Verif Require Import Base Dec ModelJson SpecJson ProofJson1.
Local Open Scope outcome_scope.
Local Open Scope N_scope.

(* ---- strings ---- *)
Lemma utf8_head cp : 0x80 <= cp < 0x200000 -> exists c s, utf8 cp = c :: s /\ 128 <= c < 256.
Proof.
  intro H.
  destruct (utf8 cp) as [|c s] eqn:E.
  { unfold utf8 in E. repeat (match type of E with (if ?b then _ else _) = _ => destruct b end); discriminate. }
  exists c, s; split; auto.
  assert (Hm : utf8_multi (c :: s)) by (exists cp; split; auto).
  destruct (validate_ok (mkOpts true true true) s [] [] TNone
              (mkR (s ++ []) false false None 1 1 [] TNone (mkOpts true true true)) c Hm) as [Hb _]; auto.
  exists 1, 1. reflexivity.
Qed.

Lemma string_loop_ok o v x : spells (dia o) v x -> forall rest b t r fuel,
  R o (x ++ 34 :: rest) b t r -> (length x < fuel)%nat ->
  exists r', string_loop fuel r = Ok r' /\ R o rest (b ++ v) t r'.
Proof.
  induction 1 as [|v x vs xs H1 Hs IH]; intros rest b t r fuel Hr Hf;
    (destruct fuel as [|fuel]; [nlia|]).
  { cbn [string_loop app] in *. rewrite (R_ok _ _ _ _ _ Hr). rpop Hr r1 K1.
    change (34 =? c_nl) with false. change (N.testbit 34 7) with false. cbn [andb].
    change (34 =? c_quote) with true. cbv iota. exists r1. rewrite app_nil_r. auto. }
  rewrite <- app_assoc in Hr.
  assert (Hf' : (length xs < fuel)%nat -> (length xs < fuel)%nat) by auto.
  rewrite app_length in Hf.
  assert (Hgo : forall r2, R o (xs ++ 34 :: rest) (b ++ v) t r2 -> (0 < length x)%nat ->
    exists r', string_loop fuel r2 = Ok r' /\ R o rest (b ++ v ++ vs) t r').
  { intros r2 H2 Hx. rewrite app_assoc. apply IH; auto. nlia. }
  cbn [string_loop]. rewrite (R_ok _ _ _ _ _ Hr).
  assert (Hopt : forall r1 s b', R o s b' t r1 -> ropt r1 = o) by (intros; eapply R_opt; eauto).
  (* simple escapes *)
  assert (Hesc : forall e c, v = [c] -> x = [92; e] -> (e =? 117) = false -> escape_value e = Some c ->
    exists r', (let (c0, r1) := popc r in
      if c0 =? c_nl then string_loop fuel (rerror_set ENewline r1)
      else if N.testbit c0 7 && o_validate (ropt r1) then
        do r2 <- validate_unicode c0 r1; string_loop fuel r2
      else if c0 =? c_quote then Ok r1
      else if c0 =? c_bslash then
        let (e, r2) := popc r1 in
        if e =? 117 then do r3 <- read_unicode r2; string_loop fuel r3
        else match escape_value e with
             | Some v => string_loop fuel (save v r2)
             | None => Ok (rerror_set (EEscape e) r2)
             end
      else string_loop fuel (save c0 r1)) = Ok r' /\ R o rest (b ++ v ++ vs) t r').
  { intros e c -> -> He Hv. cbn [app] in Hr. rpop Hr r1 K1.
    change (92 =? c_nl) with false. change (N.testbit 92 7) with false. cbn [andb].
    change (92 =? c_quote) with false. change (92 =? c_bslash) with true. cbv iota.
    rpop K1 r2 K2. rewrite He, Hv. apply Hgo; [now apply R_save|cbn; lia]. }
  destruct H1 as [c Hc Hn Hq Hb | s Hd Hm | c Hd Hc | | | | | | | | |
                  a1 a2 a3 a4 v1 v2 v3 v4 Hd D1 D2 D3 D4 | a1 a2 a3 a4 v1 v2 v3 v4 Hd D1 D2 D3 D4];
    try (eapply Hesc; reflexivity).
  - cbn [app] in Hr. rpop Hr r1 K1.
    destruct (N.eqb_spec c c_nl); [contradiction|].
    rewrite testbit7 by lia. destruct (N.leb_spec 128 c); [lia|]. cbn [andb].
    destruct (N.eqb_spec c c_quote); [contradiction|].
    destruct (N.eqb_spec c c_bslash); [contradiction|].
    apply Hgo; [now apply R_save|cbn; lia].
  - pose proof Hm as (cp & Hcp & Es). destruct (utf8_head cp Hcp) as (c & s' & E' & Hc).
    rewrite E' in Es. subst s. cbn [app] in Hr. rpop Hr r1 K1.
    destruct (N.eqb_spec c c_nl); [unfold c_nl in *; lia|].
    rewrite testbit7 by lia. destruct (N.leb_spec 128 c); [|lia].
    rewrite (R_opt _ _ _ _ _ K1). cbn [dia d_validate] in Hd. rewrite Hd. cbn [andb].
    destruct (validate_ok o s' (xs ++ 34 :: rest) b t r1 c Hm K1) as (_ & r2 & E2 & K2).
    rewrite E2. cbn [bind]. apply Hgo; [exact K2|cbn; lia].
  - cbn [app] in Hr. rpop Hr r1 K1.
    destruct (N.eqb_spec c c_nl); [unfold c_nl in *; lia|].
    rewrite (R_opt _ _ _ _ _ K1). cbn [dia d_validate] in Hd. rewrite Hd, andb_false_r.
    destruct (N.eqb_spec c c_quote); [unfold c_quote in *; lia|].
    destruct (N.eqb_spec c c_bslash); [unfold c_bslash in *; lia|].
    apply Hgo; [now apply R_save|cbn; lia].
  - cbn [app] in Hr. rpop Hr r1 K1.
    change (92 =? c_nl) with false. change (N.testbit 92 7) with false. cbn [andb].
    change (92 =? c_quote) with false. change (92 =? c_bslash) with true. cbv iota.
    rpop K1 r2 K2. change (117 =? 117) with true. cbv iota.
    unfold read_unicode. rewrite (R_opt _ _ _ _ _ K2). cbn [dia d_unescape] in Hd. rewrite Hd.
    unfold unescape_unicode.
    destruct (hex_loop_ok o _ _ _ _ _ _ _ _ _ _ _ _ D1 D2 D3 D4 K2) as (r3 & E3 & K3).
    rewrite E3, (R_ok _ _ _ _ _ K3).
    pose proof (hex_lt _ _ D1). pose proof (hex_lt _ _ D2).
    pose proof (hex_lt _ _ D3). pose proof (hex_lt _ _ D4).
    destruct (save_code_ok o (v1 * 4096 + v2 * 256 + v3 * 16 + v4) _ _ _ _ ltac:(lia) K3) as (r4 & E4 & K4).
    rewrite E4. cbn [bind]. apply Hgo; [exact K4|cbn; lia].
  - cbn [app] in Hr. rpop Hr r1 K1.
    change (92 =? c_nl) with false. change (N.testbit 92 7) with false. cbn [andb].
    change (92 =? c_quote) with false. change (92 =? c_bslash) with true. cbv iota.
    rpop K1 r2 K2. change (117 =? 117) with true. cbv iota.
    unfold read_unicode. rewrite (R_opt _ _ _ _ _ K2). cbn [dia d_unescape] in Hd. rewrite Hd.
    cbn [bind].
    apply (R_save o c_bslash) in K2. apply (R_save o 117) in K2.
    pose proof (raw_hex_ok o _ _ _ _ _ _ _ _ _ _ _ _ D1 D2 D3 D4 K2) as K3.
    rewrite <- !app_assoc in K3. apply Hgo; [exact K3|cbn; lia].
Qed.

Lemma read_string_ok o v x rest b t r : spells (dia o) v x -> R o (x ++ 34 :: rest) b t r ->
  exists r', read_string r = Ok r' /\ R o rest v t r'.
Proof.
  intros Hs Hr. unfold read_string.
  destruct (string_loop_ok o v x Hs rest [] t (reset_buf r) (rfuel r)) as (r' & E & H').
  - eapply R_reset; eauto.
  - unfold rfuel. rewrite (R_in _ _ _ _ _ Hr), app_length. cbn [length]. nlia.
  - eauto.
Qed.

(* ---- numbers ---- *)
Lemma digits_loop_ok o ds : forall c s b t r fuel,
  digits ds -> ~ digit_char c -> R o (ds ++ c :: s) b t r -> (length ds < fuel)%nat ->
  exists r', digits_loop fuel r = Ok r' /\ R o (c :: s) (b ++ ds) t r'.
Proof.
  induction ds as [|d ds IH]; intros c s b t r fuel Hd Hc Hr Hf; (destruct fuel as [|fuel]; [lia|]);
    cbn [digits_loop app length] in *; rewrite (R_ok _ _ _ _ _ Hr), (R_peek _ _ _ _ _ _ Hr).
  - apply isdigit_false in Hc. rewrite Hc, app_nil_r. eauto.
  - inversion Hd as [|? ? Hd1 Hd2]; subst. apply isdigit_iff in Hd1. rewrite Hd1.
    rpop Hr r1 K1. apply (R_save o d) in K1.
    destruct (IH c s _ t _ fuel Hd2 Hc K1 ltac:(lia)) as (r2 & E2 & K2).
    rewrite <- app_assoc in K2. eauto.
Qed.

Lemma read_digits_ok o ds c s b t r :
  digits ds -> ~ digit_char c -> R o (ds ++ c :: s) b t r ->
  exists r', read_digits r = Ok r' /\ R o (c :: s) (b ++ ds) t r'.
Proof.
  intros Hd Hc Hr. apply digits_loop_ok; auto. unfold rfuel. rewrite (R_in _ _ _ _ _ Hr), app_length.
  cbn [length]. nlia.
Qed.

Lemma read_char_yes o x s b t r : R o (x :: s) b t r ->
  exists r', read_char x r = (true, r') /\ R o s (b ++ [x]) t r'.
Proof.
  intro Hr. unfold read_char. rewrite (R_ok _ _ _ _ _ Hr), (R_peek _ _ _ _ _ _ Hr), N.eqb_refl.
  rpop Hr r1 K1. eexists; split; [reflexivity|]. now apply R_save.
Qed.
Lemma read_char_no o x c s b t r : R o (c :: s) b t r -> c <> x -> read_char x r = (false, r).
Proof.
  intros Hr Hc. unfold read_char. rewrite (R_ok _ _ _ _ _ Hr), (R_peek _ _ _ _ _ _ Hr).
  destruct (N.eqb_spec c x); [contradiction|reflexivity].
Qed.
Lemma read_chars_yes o x y c s b t r : R o (c :: s) b t r -> c = x \/ c = y ->
  exists r', read_chars x y r = (true, r') /\ R o s (b ++ [c]) t r'.
Proof.
  intros Hr Hc. unfold read_chars. rewrite (R_ok _ _ _ _ _ Hr), !(R_peek _ _ _ _ _ _ Hr).
  destruct (N.eqb_spec c x) as [->|Hx].
  - rpop Hr r1 K1. eexists; split; [reflexivity|]. now apply R_save.
  - destruct (N.eqb_spec c y) as [->|Hy]; [|tauto].
    rpop Hr r1 K1. eexists; split; [reflexivity|]. now apply R_save.
Qed.
Lemma read_chars_no o x y c s b t r : R o (c :: s) b t r -> c <> x -> c <> y ->
  read_chars x y r = (false, r).
Proof.
  intros Hr Hx Hy. unfold read_chars. rewrite (R_ok _ _ _ _ _ Hr), !(R_peek _ _ _ _ _ _ Hr).
  destruct (N.eqb_spec c x); [contradiction|].
  destruct (N.eqb_spec c y); [contradiction|]. reflexivity.
Qed.

Lemma num_stop_inv s : num_stop s -> exists c s', s = c :: s' /\ ~ digit_char c /\ c <> 46 /\ c <> 101 /\ c <> 69.
Proof. auto. Qed.

Lemma read_number_int o c ds s b t r :
  digits ds -> num_stop s -> R o (ds ++ s) b t r ->
  exists r', read_number c r = Ok (TInt, r') /\ R o s (c :: ds) t r'.
Proof.
  intros Hd (x & s' & -> & Hx & H46 & He & HE) Hr. unfold read_number.
  apply R_reset in Hr. apply (R_save o c) in Hr. cbn [app] in Hr.
  destruct (read_digits_ok o ds x s' _ t _ Hd Hx Hr) as (r1 & E1 & K1). rewrite E1. cbn [bind].
  rewrite (read_char_no o 46 x s' _ _ _ K1 H46). cbn [bind].
  rewrite (read_chars_no o 101 69 x s' _ _ _ K1 He HE). cbn [bind orb].
  exists r1. auto.
Qed.

Lemma read_number_float o c ds fr ex s b t r :
  digits ds -> (fr = [] \/ frac_part fr) -> (ex = [] \/ exp_part ex) -> (fr <> [] \/ ex <> []) ->
  num_stop s -> R o (ds ++ fr ++ ex ++ s) b t r ->
  exists r', read_number c r = Ok (TFloat, r') /\ R o s (c :: ds ++ fr ++ ex) t r'.
Proof.
  intros Hd Hfr Hex Hne Hs Hr. unfold read_number.
  apply R_reset in Hr. apply (R_save o c) in Hr. cbn [app] in Hr.
  (* the text from the exponent on *)
  assert (Hexp : forall b' r1, R o (ex ++ s) b' t r1 -> exists r4,
     (let (ex', r4) := read_chars 101 69 r1 in
      do r5 <- (if ex' then read_digits (snd (read_chars 43 45 r4)) else Ok r4);
      Ok (ex', r5)) = Ok (match ex with [] => false | _ => true end, r4)
     /\ R o s (b' ++ ex) t r4).
  { intros b' r1 K1. destruct Hs as (x & s' & -> & Hx & H46 & He & HE).
    destruct Hex as [-> | (e & sg & dd & Hee & Hsg & Hdn & Hdd & ->)].
    - cbn [app] in K1. rewrite (read_chars_no o 101 69 x s' _ _ _ K1 He HE). cbn [bind].
      exists r1. rewrite app_nil_r. auto.
    - cbn [app] in K1. destruct (read_chars_yes o 101 69 e _ _ _ _ K1 Hee) as (r2 & E2 & K2). rewrite E2.
      destruct (read_digits_ok o dd x s' (b' ++ [e] ++ sg) t (snd (read_chars 43 45 r2)) Hdd Hx) as (r3 & E3 & K3).
      { rewrite <- app_assoc in K2. destruct Hsg as [-> | [-> | ->]]; cbn [app] in *.
        - destruct dd as [|d0 dd]; [contradiction|]. inversion Hdd as [|? ? Hd0 _]; subst.
          unfold digit_char in Hd0. cbn [app] in K2.
          rewrite (read_chars_no o 43 45 d0 _ _ _ _ K2) by lia. exact K2.
        - destruct (read_chars_yes o 43 45 43 _ _ _ _ K2 ltac:(auto)) as (r3 & E3 & K3). rewrite E3.
          rewrite <- app_assoc in K3. exact K3.
        - destruct (read_chars_yes o 43 45 45 _ _ _ _ K2 ltac:(auto)) as (r3 & E3 & K3). rewrite E3.
          rewrite <- app_assoc in K3. exact K3. }
      rewrite E3. cbn [bind]. exists r3. split; auto. rewrite <- !app_assoc in K3. exact K3. }
  assert (Hfin : forall dot b' r1, R o (ex ++ s) b' t r1 -> (dot = true \/ ex <> []) -> exists r4,
     (let (ex', r4) := read_chars 101 69 r1 in
      do r5 <- (if ex' then read_digits (snd (read_chars 43 45 r4)) else Ok r4);
      Ok ((if dot || ex' then TFloat else TInt), r5)) = Ok (TFloat, r4)
     /\ R o s (b' ++ ex) t r4).
  { intros dot b' r1 K1 Hdot. destruct (Hexp b' r1 K1) as (r4 & E4 & K4). exists r4. split; auto.
    destruct (read_chars 101 69 r1) as [ex' r2].
    destruct (if ex' then read_digits (snd (read_chars 43 45 r2)) else Ok r2); cbn [bind] in *;
      try discriminate. injection E4 as -> ->.
    destruct Hdot as [->|Hn]; [reflexivity|]. destruct ex; [contradiction|]. rewrite orb_true_r. reflexivity. }
  assert (Hstop : exists x s', fr ++ ex ++ s = x :: s' /\ ~ digit_char x /\ (fr = [] -> x <> 46)).
  { destruct Hfr as [-> | (fd & -> & _)].
    - destruct Hex as [-> | (e & sg & dd & Hee & _ & _ & _ & ->)].
      + destruct Hs as (x & s' & -> & Hx & H46 & _). exists x, s'. auto.
      + exists e. eexists. split; [reflexivity|]. unfold digit_char. split; [lia|]. intros _. lia.
    - exists 46. eexists. split; [reflexivity|]. unfold digit_char. split; [lia|discriminate]. }
  destruct Hstop as (x & s' & Ex & Hx & H46). rewrite Ex in Hr.
  destruct (read_digits_ok o ds x s' _ t _ Hd Hx Hr) as (r1 & E1 & K1). rewrite E1. cbn [bind].
  destruct Hfr as [-> | (fd & -> & Hfn & Hfd)].
  - rewrite (read_char_no o 46 x s' _ _ _ K1 (H46 eq_refl)). cbn [bind].
    cbn [app] in Ex. rewrite <- Ex in K1.
    destruct (Hfin false _ _ K1) as (r4 & E4 & K4); [tauto|]. rewrite E4. exists r4. split; auto.
  - cbn [app] in Ex. apply cons_inv in Ex as [<- <-].
    destruct (read_char_yes o 46 _ _ _ _ K1) as (r2 & E2 & K2). rewrite E2.
    assert (Hst : exists y s'', ex ++ s = y :: s'' /\ ~ digit_char y).
    { destruct Hex as [-> | (e & sg & dd & Hee & _ & _ & _ & ->)].
      + destruct Hs as (y & s'' & -> & Hy & _). exists y, s''. auto.
      + exists e. eexists. split; [reflexivity|]. unfold digit_char. lia. }
    destruct Hst as (y & s'' & Ey & Hy). rewrite Ey in K2.
    destruct (read_digits_ok o fd y s'' _ t _ Hfd Hy K2) as (r3 & E3 & K3). rewrite E3. cbn [bind].
    rewrite <- Ey in K3.
    destruct (Hfin true _ _ K3) as (r4 & E4 & K4); [tauto|]. rewrite E4. exists r4. split; auto.
    cbn [app] in *. rewrite <- !app_assoc in K4. cbn [app] in *. exact K4.
Qed.

(* ---- literals ---- *)
Lemma literal_loop_ok o l : forall s b t r, R o (l ++ s) b t r ->
  exists r', literal_loop l r = ([], r') /\ R o s b t r'.
Proof.
  induction l as [|c l IH]; intros s b t r Hr; cbn [literal_loop app] in *; eauto.
  rewrite (R_ok _ _ _ _ _ Hr). rpop Hr r1 K1. rewrite N.eqb_refl. auto.
Qed.
Lemma read_literal_ok o l s b t r : R o (l ++ s) b t r -> R o s b t (read_literal l r).
Proof.
  intro Hr. unfold read_literal. destruct (literal_loop_ok o l s b t r Hr) as (r' & E & H'). rewrite E. exact H'.
Qed.

(* ---- tokens ---- *)
Definition tok_of (t : atok) : token :=
  match t with
  | AObjS => TObjS | AObjE => TObjE | AArrS => TArrS | AArrE => TArrE | ASep => TSep | AKey => TKey
  | AStr _ => TStr | AInt _ => TInt | AFloat _ => TFloat | ABool b => TBool b | ANull => TNull
  end.

(* the buffer b holds what the token refers to *)
Definition payload (t : atok) (b : str) : Prop :=
  match t with AStr s => b = s | AInt z => int_text z b | AFloat x => b = x | _ => True end.

Lemma int_text_inv z x : int_text z x ->
  exists c ds, x = c :: ds /\ (c = 45 \/ digit_char c) /\ digits ds.
Proof.
  destruct 1 as [s Hn Hd|s Hn Hd].
  - destruct s as [|c s]; [contradiction|]. inversion Hd; subst. exists c, s; auto.
  - exists 45, s; auto.
Qed.

Lemma float_text_inv x : float_text x -> exists c ds fr ex, x = c :: ds ++ fr ++ ex /\
  (c = 45 \/ digit_char c) /\ digits ds /\ (fr = [] \/ frac_part fr) /\ (ex = [] \/ exp_part ex) /\
  (fr <> [] \/ ex <> []).
Proof.
  destruct 1 as [sg ds fr ex Hsg Hn Hd Hfr Hex Hne]. destruct Hsg as [->| ->].
  - destruct ds as [|c ds]; [contradiction|]. inversion Hd; subst. exists c, ds, fr, ex. auto 8.
  - exists 45, ds, fr, ex. auto 8.
Qed.

Lemma not_space_num c : c = 45 \/ digit_char c -> isspace c = false /\ c <> c_slash /\
  (c =? 123) = false /\ (c =? 125) = false /\ (c =? 91) = false /\ (c =? 93) = false /\
  (c =? 44) = false /\ (c =? 58) = false /\ (c =? 110) = false /\ (c =? 116) = false /\
  (c =? 102) = false /\ (c =? c_quote) = false /\ ((c =? 45) || isdigit c) = true.
Proof.
  intro H. unfold c_slash, c_quote.
  assert (Hs : isspace c = false).
  { destruct (isspace c) eqn:E; auto. apply isspace_iff in E. unfold space_char, digit_char in *. lia. }
  assert (Hd : (c =? 45) || isdigit c = true).
  { destruct H as [->|H]; [reflexivity|]. apply isdigit_iff in H. rewrite H. apply orb_true_r. }
  unfold digit_char in H. repeat split; auto; try lia; apply N.eqb_neq; lia.
Qed.

Lemma lex_ok o w t x s b r :
  blank (dia o) w -> tok_text (dia o) t x -> (is_num t -> num_stop s) ->
  R o (w ++ x ++ s) b TNone r ->
  exists r' b', lex_token r = Ok (tok_of t, r') /\ R o s b' TNone r' /\ payload t b'.
Proof.
  intros Hw Ht Hn Hr. unfold lex_token. rewrite (R_ok _ _ _ _ _ Hr). cbn [negb].
  (* the first character *)
  assert (Hfirst : forall c x', x = c :: x' -> isspace c = false -> c <> c_slash ->
    exists r1, next_char (rfuel r) r = Ok (c, r1) /\ R o (x' ++ s) b TNone r1).
  { intros c x' -> Hc Hsl. cbn [app] in Hr. apply (next_char_ok o w Hw); auto; try congruence.
    unfold rfuel. rewrite (R_in _ _ _ _ _ Hr), app_length. nlia. }
  destruct Ht as [ | | | | | | v y Hv | z y Hz | y Hy | | | ];
    try (destruct (Hfirst _ _ eq_refl eq_refl ltac:(discriminate)) as (r1 & E1 & K1);
         rewrite E1; cbn [bind]; rewrite (R_ok _ _ _ _ _ K1); cbn [negb]; cbv iota;
         repeat (match goal with |- context [N.eqb ?a ?b] =>
            let v := eval vm_compute in (N.eqb a b) in change (N.eqb a b) with v; cbv iota end);
         first [ exists r1, b; split; [reflexivity|split; [exact K1|exact I]]
               | eexists; exists b; split; [reflexivity|split; [|exact I]];
                 apply read_literal_ok; exact K1 ]).
  - destruct (Hfirst _ _ eq_refl eq_refl ltac:(discriminate)) as (r1 & E1 & K1).
    rewrite E1; cbn [bind]; rewrite (R_ok _ _ _ _ _ K1); cbn [negb]; cbv iota.
    repeat (match goal with |- context [N.eqb ?a ?b] =>
            let v := eval vm_compute in (N.eqb a b) in change (N.eqb a b) with v; cbv iota end).
    rewrite <- app_assoc in K1. cbn [app] in K1.
    destruct (read_string_ok o v y s b TNone r1 Hv K1) as (r2 & E2 & K2).
    rewrite E2. cbn [bind]. exists r2, v. split; [reflexivity|]. split; [exact K2|reflexivity].
  - destruct (int_text_inv z y Hz) as (c & ds & -> & Hc & Hd).
    destruct (not_space_num c Hc) as (Hsp & Hsl & E123 & E125 & E91 & E93 & E44 & E58 & E110 & E116 & E102 & Eq & Edig).
    destruct (Hfirst c ds eq_refl Hsp Hsl) as (r1 & E1 & K1).
    rewrite E1. cbn [bind]. rewrite (R_ok _ _ _ _ _ K1). cbn [negb].
    rewrite E123, E125, E91, E93, E44, E58, E110, E116, E102, Eq, Edig.
    destruct (read_number_int o c ds s b TNone r1 Hd (Hn I) K1) as (r2 & E2 & K2).
    rewrite E2. exists r2, (c :: ds). split; [reflexivity|]. split; [exact K2|exact Hz].
  - destruct (float_text_inv y Hy) as (c & ds & fr & ex & -> & Hc & Hd & Hfr & Hex & Hne).
    destruct (not_space_num c Hc) as (Hsp & Hsl & E123 & E125 & E91 & E93 & E44 & E58 & E110 & E116 & E102 & Eq & Edig).
    destruct (Hfirst c _ eq_refl Hsp Hsl) as (r1 & E1 & K1).
    rewrite E1. cbn [bind]. rewrite (R_ok _ _ _ _ _ K1). cbn [negb].
    rewrite E123, E125, E91, E93, E44, E58, E110, E116, E102, Eq, Edig.
    rewrite <- !app_assoc in K1.
    destruct (read_number_float o c ds fr ex s b TNone r1 Hd Hfr Hex Hne (Hn I) K1) as (r2 & E2 & K2).
    rewrite E2. exists r2, (c :: ds ++ fr ++ ex). split; [reflexivity|]. split; [exact K2|reflexivity].
Qed.
