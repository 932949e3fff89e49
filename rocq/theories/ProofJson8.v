(* ProofJson8.v - UTF-8 sequences as decoded by the reader and the writer. *)
From Coq Require String. Import String.StringSyntax.
From Verif Require Import Base Dec ModelJson ModelJsonW SpecJson ProofJson1 ProofJson2 ProofJson4 ProofJson5 ProofJson6.
Local Open Scope outcome_scope.
Local Open Scope N_scope.

Definition contb (c : byte) : Prop := 128 <= c < 192.
Definition decode (n c : N) (cs : str) : N := fold_left (fun a c => a * 64 + (c - 128)) cs (c mod 2 ^ (7 - n)).
Definition min_code (n : N) : N := if n =? 2 then 0x7F else if n =? 3 then 0x7FF else 0xFFFF.

Lemma lead_cases c n : c < 256 -> lead_ones c = Some n -> 2 <= n <= 4 ->
  (n = 2 /\ 192 <= c < 224) \/ (n = 3 /\ 224 <= c < 240) \/ (n = 4 /\ 240 <= c < 248).
Proof.
  intros Hc. rewrite lead_ones_table by assumption. unfold lead_table.
  repeat (match goal with |- context[if ?a <? ?b then _ else _] => destruct (N.ltb_spec a b) end);
  intro H'; try discriminate; injection H' as <-; lia.
Qed.
Lemma lead_of c n : (n = 2 /\ 192 <= c < 224) \/ (n = 3 /\ 224 <= c < 240) \/ (n = 4 /\ 240 <= c < 248) ->
  lead_ones c = Some n.
Proof.
  intro H. rewrite lead_ones_table by lia. unfold lead_table.
  repeat (match goal with |- context[if ?a <? ?b then _ else _] => destruct (N.ltb_spec a b) end);
  first [lia | f_equal; lia].
Qed.

Lemma mod_high h k x : x < k -> k <> 0 -> (h * k + x) mod k = x.
Proof. intros Hx Hk. rewrite N.add_comm, N.mod_add by assumption. now apply N.mod_small. Qed.

Lemma div64 a b : b < 64 -> (a * 64 + b) / 64 = a.
Proof. intro H. symmetry. apply (N.div_unique _ _ _ b); lia. Qed.
Lemma mod64 a b : b < 64 -> (a * 64 + b) mod 64 = b.
Proof. intro H. symmetry. apply (N.mod_unique _ _ a b); lia. Qed.

Lemma multi_intro c cs n : c < 256 -> lead_ones c = Some n -> 2 <= n <= 4 -> length cs = N.to_nat (n - 1) ->
  Forall contb cs -> min_code n < decode n c cs -> utf8_multi (c :: cs).
Proof.
  intros Hc Hl Hn Hlen Hcs Hmin. exists (decode n c cs). unfold decode in *.
  destruct (lead_cases c n Hc Hl Hn) as [[-> Hr]|[[-> Hr]|[-> Hr]]].
  - change (N.to_nat (2 - 1)) with 1%nat in Hlen. destruct cs as [|c1 [|? ?]]; try discriminate Hlen.
    inversion Hcs as [|? ? H1 _]; subst. unfold contb in H1. cbn [fold_left] in *.
    set (a := c - 192). assert (Ea : c mod 2 ^ (7 - 2) = a).
    { change (2 ^ (7 - 2)) with 32. replace c with (6 * 32 + a) by (unfold a; lia). apply mod_high; unfold a; lia. }
    rewrite Ea in *. change (min_code 2) with 0x7F in Hmin.
    assert (Hac : c = 192 + a) by (unfold a; lia). assert (Ha : a < 32) by (unfold a; lia). clearbody a.
    set (b := c1 - 128) in *. assert (Hb : c1 = 128 + b /\ b < 64) by (unfold b; lia). clearbody b. destruct Hb as [Hb1 Hb2].
    split; [lia|]. unfold utf8. destruct (N.ltb_spec (a * 64 + b) 0x80); [lia|].
    destruct (N.ltb_spec (a * 64 + b) 0x800); [|lia]. rewrite div64, mod64 by assumption. clear Ea. subst c1. rewrite <- Hac. reflexivity.
  - change (N.to_nat (3 - 1)) with 2%nat in Hlen. destruct cs as [|c1 [|c2 [|? ?]]]; try discriminate Hlen.
    inversion Hcs as [|? ? H1 Hcs2]; subst. inversion Hcs2 as [|? ? H2 _]; subst. unfold contb in *. cbn [fold_left] in *.
    set (a := c - 224). assert (Ea : c mod 2 ^ (7 - 3) = a).
    { change (2 ^ (7 - 3)) with 16. replace c with (14 * 16 + a) by (unfold a; lia). apply mod_high; unfold a; lia. }
    rewrite Ea in *. change (min_code 3) with 0x7FF in Hmin.
    assert (Hac : c = 224 + a) by (unfold a; lia). assert (Ha : a < 16) by (unfold a; lia). clearbody a.
    set (b := c1 - 128) in *. assert (Hb : c1 = 128 + b /\ b < 64) by (unfold b; lia). clearbody b. destruct Hb as [Hb1 Hb2].
    set (d := c2 - 128) in *. assert (Hd : c2 = 128 + d /\ d < 64) by (unfold d; lia). clearbody d. destruct Hd as [Hd1 Hd2].
    split; [lia|]. unfold utf8. set (code := (a * 64 + b) * 64 + d) in *.
    destruct (N.ltb_spec code 0x80); [lia|].
    destruct (N.ltb_spec code 0x800); [lia|]. destruct (N.ltb_spec code 0x10000); [|unfold code in *; lia].
    change 4096 with (64 * 64). rewrite <- N.div_div by discriminate. unfold code.
    repeat first [rewrite div64 by assumption | rewrite mod64 by assumption]. clear Ea. subst c1. subst c2. rewrite <- Hac. reflexivity.
  - change (N.to_nat (4 - 1)) with 3%nat in Hlen. destruct cs as [|c1 [|c2 [|c3 [|? ?]]]]; try discriminate Hlen.
    inversion Hcs as [|? ? H1 Hcs2]; subst. inversion Hcs2 as [|? ? H2 Hcs3]; subst. inversion Hcs3 as [|? ? H3 _]; subst.
    unfold contb in *. cbn [fold_left] in *.
    set (a := c - 240). assert (Ea : c mod 2 ^ (7 - 4) = a).
    { change (2 ^ (7 - 4)) with 8. replace c with (30 * 8 + a) by (unfold a; lia). apply mod_high; unfold a; lia. }
    rewrite Ea in *. change (min_code 4) with 0xFFFF in Hmin.
    assert (Hac : c = 240 + a) by (unfold a; lia). assert (Ha : a < 8) by (unfold a; lia). clearbody a.
    set (b := c1 - 128) in *. assert (Hb : c1 = 128 + b /\ b < 64) by (unfold b; lia). clearbody b. destruct Hb as [Hb1 Hb2].
    set (d := c2 - 128) in *. assert (Hd : c2 = 128 + d /\ d < 64) by (unfold d; lia). clearbody d. destruct Hd as [Hd1 Hd2].
    set (g := c3 - 128) in *. assert (Hg : c3 = 128 + g /\ g < 64) by (unfold g; lia). clearbody g. destruct Hg as [Hg1 Hg2].
    split; [lia|]. unfold utf8. set (code := ((a * 64 + b) * 64 + d) * 64 + g) in *.
    destruct (N.ltb_spec code 0x80); [lia|].
    destruct (N.ltb_spec code 0x800); [lia|]. destruct (N.ltb_spec code 0x10000); [lia|].
    change 262144 with (64 * 64 * 64). change 4096 with (64 * 64). rewrite <- !N.div_div by discriminate. unfold code.
    repeat first [rewrite div64 by assumption | rewrite mod64 by assumption]. clear Ea. subst c1. subst c2 c3. rewrite <- Hac. reflexivity.
Qed.

Lemma utf8_parts cp c cs : 0x80 <= cp < 0x200000 -> c :: cs = utf8 cp ->
  exists n, 2 <= n <= 4 /\ 192 <= c < 248 /\ lead_ones c = Some n /\ length cs = N.to_nat (n - 1) /\ Forall contb cs /\
            decode n c cs = cp /\ min_code n < cp.
Proof.
  intros Hcp E.
  assert (Hcont : forall x, contb (128 + x mod 64)).
  { intro x. unfold contb. assert (x mod 64 < 64) by (apply N.mod_lt; discriminate). glia. }
  assert (Hdm64 := fun x => N.div_mod' x 64).
  unfold utf8 in E. destruct (N.ltb_spec cp 0x80) as [?|_]; [glia|].
  destruct (N.ltb_spec cp 0x800) as [H2|H2].
  { apply cons_inv in E as [-> ->].
    assert (Hq : cp / 64 < 32) by (apply N.div_lt_upper_bound; glia).
    assert (Hd : decode 2 (192 + cp / 64) [128 + cp mod 64] = cp).
    { unfold decode. cbn [fold_left].
      replace ((192 + cp / 64) mod 2 ^ (7 - 2)) with (cp / 64).
      2:{ change (2 ^ (7 - 2)) with 32. replace (192 + cp / 64) with (6 * 32 + cp / 64) by glia.
          symmetry. apply mod_high; glia. }
      specialize (Hdm64 cp). glia. }
    exists 2. rewrite Hd. split; [lia|]. split; [glia|]. split; [apply lead_of; left; split; [reflexivity|glia]|].
    split; [reflexivity|]. split; [repeat constructor; apply Hcont|]. split; [reflexivity|]. change (min_code 2) with 0x7F. glia. }
  destruct (N.ltb_spec cp 0x10000) as [H3|H3].
  { apply cons_inv in E as [-> ->].
    assert (Hq : cp / 4096 < 16) by (apply N.div_lt_upper_bound; glia).
    assert (Hd : decode 3 (224 + cp / 4096) [128 + (cp / 64) mod 64; 128 + cp mod 64] = cp).
    { unfold decode. cbn [fold_left].
      replace ((224 + cp / 4096) mod 2 ^ (7 - 3)) with (cp / 4096).
      2:{ change (2 ^ (7 - 3)) with 16. replace (224 + cp / 4096) with (14 * 16 + cp / 4096) by glia.
          symmetry. apply mod_high; glia. }
      pose proof (Hdm64 cp) as Ha. pose proof (Hdm64 (cp / 64)) as Hb.
      rewrite N.div_div in Hb by discriminate. change (64 * 64) with 4096 in Hb. glia. }
    exists 3. rewrite Hd. split; [lia|]. split; [glia|]. split; [apply lead_of; right; left; split; [reflexivity|glia]|].
    split; [reflexivity|]. split; [repeat constructor; apply Hcont|]. split; [reflexivity|]. change (min_code 3) with 0x7FF. glia. }
  apply cons_inv in E as [-> ->].
  assert (Hq : cp / 262144 < 8) by (apply N.div_lt_upper_bound; glia).
  assert (Hd : decode 4 (240 + cp / 262144) [128 + (cp / 4096) mod 64; 128 + (cp / 64) mod 64; 128 + cp mod 64] = cp).
  { unfold decode. cbn [fold_left].
    replace ((240 + cp / 262144) mod 2 ^ (7 - 4)) with (cp / 262144).
    2:{ change (2 ^ (7 - 4)) with 8. replace (240 + cp / 262144) with (30 * 8 + cp / 262144) by glia.
        symmetry. apply mod_high; glia. }
    pose proof (Hdm64 cp) as Ha. pose proof (Hdm64 (cp / 64)) as Hb. pose proof (Hdm64 (cp / 4096)) as Hc.
    rewrite N.div_div in Hb by discriminate. change (64 * 64) with 4096 in Hb.
    rewrite N.div_div in Hc by discriminate. change (4096 * 64) with 262144 in Hc. glia. }
  exists 4. rewrite Hd. split; [lia|]. split; [glia|]. split; [apply lead_of; right; right; split; [reflexivity|glia]|].
  split; [reflexivity|]. split; [repeat constructor; apply Hcont|]. split; [reflexivity|]. change (min_code 4) with 0xFFFF. glia.
Qed.

(* ---- the reader's validator, inverted ---- *)
Lemma R_pop_nil o b t r : R o [] b t r -> exists r', popc r = (c_eof, r') /\ rok r' = false.
Proof. intros (p & l & ->). eexists. split; reflexivity. Qed.

Lemma cont_loop_inv o n : forall code s b t r, R o s b t r -> byte_string s -> rok (snd (cont_loop n code r)) = true ->
  exists cs s', length cs = n /\ Forall contb cs /\ s = cs ++ s' /\
    fst (cont_loop n code r) = fold_left (fun a c => a * 64 + (c - 128)) cs code /\
    R o s' (b ++ cs) t (snd (cont_loop n code r)).
Proof.
  induction n as [|n IH]; intros code s b t r Hr Hb Hok; cbn [cont_loop] in *.
  { exists [], s. cbn [fst snd app] in *. rewrite app_nil_r. repeat split; auto. }
  rewrite (R_ok _ _ _ _ _ Hr) in *.
  destruct s as [|c s].
  { destruct (R_pop_nil _ _ _ _ Hr) as (r1 & E & Ok1). rewrite E in *.
    set (r2 := if N.land c_eof 192 =? 128 then save c_eof r1 else rerror_set EUtf8 (save c_eof r1)) in *.
    set (code1 := N.lor (N.shiftl code 6) (N.land c_eof 63)) in *.
    destruct (cont_loop_fine n code1 r2) as [V _]. apply (ev_ok_back _ _ V) in Hok.
    change r2 with (rerror_set EUtf8 (save c_eof r1)) in Hok. rewrite err_not_ok in Hok. discriminate. }
  destruct (R_pop _ _ _ _ _ _ Hr) as (r1 & E & H1). rewrite E in *. clear E.
  set (r2 := if N.land c 192 =? 128 then save c r1 else rerror_set EUtf8 (save c r1)) in *.
  set (code1 := N.lor (N.shiftl code 6) (N.land c 63)) in *.
  inversion Hb as [|? ? Hc Hbs]; subst. unfold is_byte in Hc.
  assert (Ok2 : rok r2 = true).
  { destruct (cont_loop_fine n code1 r2) as [V _]. eapply ev_ok_back; eauto. }
  unfold r2 in Ok2. destruct (N.land c 192 =? 128) eqn:Ec; [|rewrite err_not_ok in Ok2; discriminate].
  rewrite cont_byte in Ec by assumption. apply andb_true_iff in Ec as [C1 C2].
  apply N.leb_le in C1. apply N.ltb_lt in C2.
  destruct (IH code1 s (b ++ [c]) t r2) as (cs & s' & L & F & I & C & B); [now apply R_save|exact Hbs|exact Hok|].
  exists (c :: cs), s'. split; [cbn; congruence|]. split; [constructor; [split; lia|exact F]|].
  split; [cbn; congruence|]. split.
  - rewrite C. cbn [fold_left]. f_equal. unfold code1. rewrite land63, lor64 by (apply N.mod_lt; discriminate).
    f_equal. replace c with (2 * 64 + (c - 128)) at 1 by lia. apply mod64. lia.
  - rewrite <- app_assoc in B. exact B.
Qed.

Lemma validate_inv o c s b t r r' : R o s b t r -> c < 256 -> byte_string s -> validate_unicode c r = Ok r' -> rok r' = true ->
  exists cs s', s = cs ++ s' /\ Forall contb cs /\ utf8_multi (c :: cs) /\ R o s' (b ++ c :: cs) t r'.
Proof.
  intros Hr Hc Hb H Hok. unfold validate_unicode in H. destruct (lead_ones c) as [n|] eqn:El; [|discriminate].
  destruct ((4 <? n) || (n <? 2)) eqn:En.
  { exfalso. destruct (cont_loop _ _ _) as [code r2] eqn:Ecl in H.
    assert (V2 : evolves (rerror_set (EUtf8Head c) (save c r)) r2).
    { match type of Ecl with cont_loop ?k ?q ?w = _ => destruct (cont_loop_fine k q w) as [V _]; rewrite Ecl in V; exact V end. }
    assert (rok r2 = false) by (eapply ev_not_ok; [exact V2|apply err_not_ok]).
    match type of H with (if ?b then _ else _) = _ => destruct b end; injection H as <-; [congruence|].
    rewrite err_not_ok in Hok. discriminate. }
  apply orb_false_iff in En as [N1 N2]. apply N.ltb_ge in N1, N2.
  rewrite (lead_mask _ _ El) in H.
  pose proof (cont_loop_inv o (N.to_nat (n - 1)) (c mod 2 ^ (7 - n)) s (b ++ [c]) t (save c r) (R_save _ _ _ _ _ _ Hr) Hb) as Hinv.
  destruct (cont_loop (N.to_nat (n - 1)) (c mod 2 ^ (7 - n)) (save c r)) as [code r2]. cbn [fst snd] in Hinv.
  match type of H with (if ?b then _ else _) = _ => destruct b eqn:Eb end; injection H as <-;
    [|rewrite err_not_ok in Hok; discriminate].
  destruct (Hinv Hok) as (cs & s' & L & F & I & C & B). exists cs, s'. split; [exact I|]. split; [exact F|]. split.
  2:{ rewrite <- app_assoc in B. exact B. }
  apply (multi_intro c cs n); auto. unfold decode. rewrite <- C.
  destruct (lead_cases c n Hc El) as [[-> _]|[[-> _]|[-> _]]]; [lia| | |].
  - change (2 =? 4) with false in Eb. change (2 =? 3) with false in Eb. cbn [andb orb] in Eb. change (2 =? 2) with true in Eb.
    cbn [andb] in Eb. apply N.ltb_lt in Eb. exact Eb.
  - change (3 =? 4) with false in Eb. change (3 =? 3) with true in Eb. change (3 =? 2) with false in Eb. cbn [andb orb] in Eb.
    rewrite orb_false_r in Eb. apply N.ltb_lt in Eb. exact Eb.
  - change (4 =? 4) with true in Eb. change (4 =? 3) with false in Eb. change (4 =? 2) with false in Eb. cbn [andb orb] in Eb.
    rewrite !orb_false_r in Eb. apply N.ltb_lt in Eb. exact Eb.
Qed.

Lemma lead_none c : c < 256 -> lead_ones c = None -> c = 255.
Proof.
  intros Hc. rewrite lead_ones_table by assumption. unfold lead_table.
  repeat (match goal with |- context[if ?a <? ?b then _ else _] => destruct (N.ltb_spec a b); try discriminate end). lia.
Qed.
Lemma validate_total c r : c < 255 -> exists r', validate_unicode c r = Ok r'.
Proof.
  intro Hc. unfold validate_unicode. destruct (lead_ones c) as [n|] eqn:El.
  - destruct (cont_loop _ _ _) as [code r2]. destruct (_ || _); eauto.
  - apply lead_none in El; lia.
Qed.


Lemma cont_prefix cs : forall x rest s, Forall contb cs -> cs ++ s = x ++ 34 :: rest ->
  exists x', x = cs ++ x' /\ s = x' ++ 34 :: rest.
Proof.
  induction cs as [|c cs IH]; intros x rest s F E; [exists x; auto|]. inversion F as [|? ? Hc F']; subst.
  destruct x as [|y x]; cbn [app] in E.
  - apply cons_inv in E as [-> _]. unfold contb in Hc. lia.
  - apply cons_inv in E as [-> E]. destruct (IH _ _ _ F' E) as (x' & -> & ->). exists x'. auto.
Qed.

Definition any_cp (_ : N) : Prop := True.

Lemma string_loop_not_ok fuel r : rok r = false -> (0 < fuel)%nat -> string_loop fuel r = Ok (rerror_set EString r).
Proof. intros H Hf. destruct fuel; [lia|]. cbn [string_loop]. rewrite H. reflexivity. Qed.

Lemma utf8_multi_text cs s : utf8_multi cs -> utf8_text any_cp s -> utf8_text any_cp (cs ++ s).
Proof. intros (cp & Hcp & ->) H. apply ut_cons; [lia|exact I|exact H]. Qed.
Lemma utf8_one c s : c < 128 -> utf8_text any_cp s -> utf8_text any_cp (c :: s).
Proof.
  intros Hc H. change (c :: s) with ([c] ++ s). replace [c] with (utf8 c).
  - apply ut_cons; [lia|exact I|exact H].
  - unfold utf8. destruct (N.ltb_spec c 0x80); [reflexivity|lia].
Qed.

Lemma string_loop_raw : forall fuel o x rest b t r, raw_text x -> ~ In 255 x -> byte_string rest -> o_validate o = true ->
  R o (x ++ 34 :: rest) b t r -> (length x < fuel)%nat ->
  exists r', string_loop fuel r = Ok r' /\
    (rok r' = true /\ utf8_text any_cp x /\ R o rest (b ++ x) t r' \/ rerr r' <> None).
Proof.
  induction fuel as [|f IH]; intros o x rest b t r Hx H255 Hrest Hv Hr Hf; [lia|]. cbn [string_loop].
  rewrite (R_ok _ _ _ _ _ Hr). destruct x as [|c x]; cbn [app] in Hr.
  { rpop Hr r1 K1. change (34 =? c_nl) with false. change (N.testbit 34 7) with false. cbn [andb].
    change (34 =? c_quote) with true. cbv iota. exists r1. split; [reflexivity|]. left.
    rewrite app_nil_r. split; [eapply R_ok; eauto|]. split; [constructor|auto]. }
  destruct Hx as (Hb & Hn & Hq & Hbs). inversion Hb as [|? ? Hc Hb']; subst. unfold is_byte in Hc.
  assert (Hx' : raw_text x) by (repeat split; auto; intro K; [apply Hn|apply Hq|apply Hbs]; now right).
  assert (H255' : ~ In 255 x) by (intro K; apply H255; now right).
  assert (Hc255 : c <> 255) by (intros ->; apply H255; now left).
  rpop Hr r1 K1.
  destruct (N.eqb_spec c c_nl) as [->|_]; [exfalso; apply Hn; now left|].
  rewrite (R_opt _ _ _ _ _ K1), Hv, andb_true_r, testbit7 by assumption.
  destruct (N.leb_spec 128 c) as [Hhi|Hlo].
  - destruct (validate_total c r1) as [r2 E2]; [lia|]. rewrite E2. cbn [bind].
    assert (Hall : byte_string (x ++ 34 :: rest)).
    { apply Forall_app. split; [exact Hb'|]. constructor; [unfold is_byte; lia|exact Hrest]. }
    destruct (rok r2) eqn:Ok2.
    + destruct (validate_inv o c _ b t r1 r2 K1 Hc Hall E2 Ok2) as (cs & s' & Es & Fc & Hm & Hr2).
      destruct (cont_prefix cs x rest s' Fc (eq_sym Es)) as (x' & -> & ->).
      assert (Hx2 : raw_text x').
      { destruct Hx' as (B1 & B2 & B3 & B4). apply Forall_app in B1 as [_ B1].
        repeat split; auto; intro K; [apply B2|apply B3|apply B4]; apply in_or_app; now right. }
      destruct (IH o x' rest (b ++ c :: cs) t r2) as (r' & E' & [(O' & U' & R')|Er]); auto.
      { intro K; apply H255', in_or_app; now right. }
      { cbn [length] in Hf. assert (L := app_length cs x'). nlia. }
      { exists r'. split; [exact E'|]. left. split; [exact O'|].
        split; [change (c :: cs ++ x') with ((c :: cs) ++ x'); now apply utf8_multi_text|].
        rewrite <- app_assoc in R'. exact R'. }
      { exists r'. auto. }
    + rewrite string_loop_not_ok; [|assumption|cbn in Hf; nlia]. eexists. split; [reflexivity|]. right.
      unfold rerror_set. destruct (rerr r2) eqn:Er2; cbn; congruence.
  - destruct (N.eqb_spec c c_quote) as [->|_]; [exfalso; apply Hq; now left|].
    destruct (N.eqb_spec c c_bslash) as [->|_]; [exfalso; apply Hbs; now left|].
    destruct (IH o x rest (b ++ [c]) t (save c r1)) as (r' & E' & [(O' & U' & R')|Er]); auto.
    { now apply R_save. }
    { cbn in Hf. nlia. }
    { exists r'. split; [exact E'|]. left. split; [exact O'|]. split; [now apply utf8_one|].
      rewrite <- app_assoc in R'. exact R'. }
    { exists r'. auto. }
Qed.
