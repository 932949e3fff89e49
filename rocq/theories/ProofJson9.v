(* ProofJson9.v - what the writer prints for strings and integers. *)
From Coq Require String. Import String.StringSyntax.
From Verif Require Import Base Dec ModelJson ModelJsonW SpecJson ProofJson1 ProofJson2 ProofJson8.
Local Open Scope outcome_scope.
Local Open Scope N_scope.

Lemma push_push a b w : push b (push a w) = push (a ++ b) w.
Proof. unfold push. cbn. now rewrite app_assoc. Qed.
Lemma push_nil w : push [] w = w.
Proof. unfold push. rewrite app_nil_r. destruct w; reflexivity. Qed.

(* ---- "\uXXXX" ---- *)
Lemma hexchar_digit v : v < 16 -> hex_digit (hexchar v) v.
Proof. intro H. unfold hexchar, hex_digit. destruct (N.ltb_spec v 10); lia. Qed.

Lemma show_u_ok code : code < 0x10000 -> exists a b c e va vb vc ve,
  show_u code = [92; 117; a; b; c; e] /\ code = va * 4096 + vb * 256 + vc * 16 + ve /\
  hex_digit a va /\ hex_digit b vb /\ hex_digit c vc /\ hex_digit e ve.
Proof.
  intro H.
  assert (Hd : forall x, x = 16 * (x / 16) + x mod 16) by (intro; apply N.div_mod'; discriminate).
  assert (Hm : forall x, x mod 16 < 16) by (intro; apply N.mod_lt; discriminate).
  assert (H0 : hex_digit 48 0) by (left; lia).
  unfold show_u.
  destruct (N.ltb_spec code 16) as [L0|L0].
  { cbn [hexs]. destruct (N.ltb_spec code 16); [|lia].
    exists 48, 48, 48, (hexchar code), 0, 0, 0, code. split; [reflexivity|]. split; [lia|].
    repeat split; auto. now apply hexchar_digit. }
  set (q1 := code / 16) in *. set (e := code mod 16) in *.
  assert (E1 : code = 16 * q1 + e) by apply Hd. assert (M1 : e < 16) by apply Hm.
  assert (X1 : hexs 8 code = hexs 7 q1 ++ [hexchar e]).
  { unfold q1, e. cbn [hexs]. destruct (N.ltb_spec code 16); [lia|reflexivity]. }
  clearbody q1 e. rewrite X1. clear X1.
  destruct (N.ltb_spec q1 16) as [L1|L1].
  { cbn [hexs]. destruct (N.ltb_spec q1 16); [|lia].
    exists 48, 48, (hexchar q1), (hexchar e), 0, 0, q1, e. split; [reflexivity|]. split; [lia|].
    repeat split; auto; now apply hexchar_digit. }
  set (q2 := q1 / 16) in *. set (c := q1 mod 16) in *.
  assert (E2 : q1 = 16 * q2 + c) by apply Hd. assert (M2 : c < 16) by apply Hm.
  assert (X1 : hexs 7 q1 = hexs 6 q2 ++ [hexchar c]).
  { unfold q2, c. cbn [hexs]. destruct (N.ltb_spec q1 16); [lia|reflexivity]. }
  clearbody q2 c. rewrite X1. clear X1.
  destruct (N.ltb_spec q2 16) as [L2|L2].
  { cbn [hexs]. destruct (N.ltb_spec q2 16); [|lia].
    exists 48, (hexchar q2), (hexchar c), (hexchar e), 0, q2, c, e. split; [reflexivity|]. split; [lia|].
    repeat split; auto; now apply hexchar_digit. }
  set (q3 := q2 / 16) in *. set (b := q2 mod 16) in *.
  assert (E3 : q2 = 16 * q3 + b) by apply Hd. assert (M3 : b < 16) by apply Hm.
  assert (X1 : hexs 6 q2 = hexs 5 q3 ++ [hexchar b]).
  { unfold q3, b. cbn [hexs]. destruct (N.ltb_spec q2 16); [lia|reflexivity]. }
  clearbody q3 b. rewrite X1. clear X1.
  assert (L3 : q3 < 16) by lia.
  cbn [hexs]. destruct (N.ltb_spec q3 16); [|lia].
  exists (hexchar q3), (hexchar b), (hexchar c), (hexchar e), q3, b, c, e. split; [reflexivity|]. split; [lia|].
  repeat split; auto; now apply hexchar_digit.
Qed.

(* ---- one byte ---- *)
Lemma format_char_ok d c : c < 128 -> spell1 d [c] (format_char c).
Proof.
  intro H. unfold format_char.
  destruct (N.eqb_spec c 34) as [->|]; [constructor|].
  destruct (N.eqb_spec c 47) as [->|]; [constructor|].
  destruct (N.eqb_spec c 92) as [->|]; [constructor|].
  destruct (N.eqb_spec c 8) as [->|]; [constructor|].
  destruct (N.eqb_spec c 12) as [->|]; [constructor|].
  destruct (N.eqb_spec c 10) as [->|]; [constructor|].
  destruct (N.eqb_spec c 13) as [->|]; [constructor|].
  destruct (N.eqb_spec c 9) as [->|]; [constructor|]. now constructor.
Qed.
Lemma format_char_high c : 128 <= c -> format_char c = [c].
Proof.
  intro H. unfold format_char.
  repeat match goal with |- context [if ?a =? ?b then _ else _] => destruct (N.eqb_spec a b); [lia|] end. reflexivity.
Qed.

(* ---- continuation loops ---- *)
Lemma shift_fold c a : contb c -> N.lor (N.shiftl a 6) (N.land c 63) = a * 64 + (c - 128).
Proof.
  intros [H1 H2]. rewrite land63, lor64 by (apply N.mod_lt; discriminate).
  f_equal. replace c with (2 * 64 + (c - 128)) at 1 by lia. apply mod64. lia.
Qed.
Lemma contb_bit c : contb c -> (N.land c 0xC0 =? 0x80) = true.
Proof.
  intros [H1 H2]. rewrite cont_byte by lia. apply andb_true_iff. split; [now apply N.leb_le|now apply N.ltb_lt].
Qed.
Lemma esc_loop_ok cs : forall code s w, Forall contb cs -> werr w = false ->
  esc_loop (length cs) code (cs ++ s) w = Ok (fold_left (fun a c => a * 64 + (c - 128)) cs code, s, w).
Proof.
  induction cs as [|c cs IH]; intros code s w F Hw; cbn [length esc_loop app fold_left]; [reflexivity|].
  inversion F as [|? ? Hc F']; subst. unfold wok. rewrite Hw. cbn [negb].
  rewrite (contb_bit c Hc), (shift_fold c code Hc). now apply IH.
Qed.
Lemma raw_loop_ok cs : forall code s w, Forall contb cs -> werr w = false ->
  raw_loop (length cs) code (cs ++ s) w = Ok (fold_left (fun a c => a * 64 + (c - 128)) cs code, s, push cs w).
Proof.
  induction cs as [|c cs IH]; intros code s w F Hw; cbn [length raw_loop app fold_left]; [now rewrite push_nil|].
  inversion F as [|? ? Hc F']; subst. unfold wok. rewrite Hw. cbn [negb].
  rewrite (contb_bit c Hc), (shift_fold c code Hc). rewrite IH by assumption. rewrite push_push. reflexivity.
Qed.

Lemma mask_eq c n : n <= 7 -> N.land c (N.shiftl 1 (8 - (n + 1)) - 1) = c mod 2 ^ (7 - n).
Proof.
  intro H. replace (8 - (n + 1)) with (7 - n) by lia.
  rewrite N.shiftl_1_l. rewrite <- N.pred_sub, <- N.ones_equiv. apply N.land_ones.
Qed.

Lemma escape_unicode_ok cp c cs s w : 0x80 <= cp < 0x200000 -> c :: cs = utf8 cp -> werr w = false ->
  escape_unicode c (cs ++ s) w = Ok (s, push (show_u cp) w).
Proof.
  intros Hcp E Hw. destruct (utf8_parts cp c cs Hcp E) as (n & Hn & Hc & Hl & Hlen & Hcs & Hd & Hmin).
  unfold escape_unicode. rewrite Hl.
  replace ((4 <? n) || (n <? 2)) with false.
  2:{ symmetry. apply orb_false_iff. split; apply N.ltb_ge; lia. }
  replace (N.of_nat (length (c :: cs ++ s)) <? n) with false.
  2:{ symmetry. apply N.ltb_ge. cbn [length]. assert (L := app_length cs s). nlia. }
  cbv zeta iota. rewrite mask_eq by lia. rewrite <- Hlen, esc_loop_ok by assumption. cbn [bind].
  unfold decode in Hd. rewrite Hd. reflexivity.
Qed.

Lemma min_code_test n code : 2 <= n <= 4 -> min_code n < code ->
  ((n =? 4) && (code <=? 0xFFFF)) || ((n =? 3) && (code <=? 0x7FF)) || ((n =? 2) && (code <=? 0x7F)) = false.
Proof.
  intros Hn H. assert (Hc : n = 2 \/ n = 3 \/ n = 4) by lia. destruct Hc as [->|[->| ->]]; cbn -[N.leb].
  - change (min_code 2) with 0x7F in H. apply N.leb_gt. exact H.
  - change (min_code 3) with 0x7FF in H. rewrite orb_false_r. apply N.leb_gt. exact H.
  - change (min_code 4) with 0xFFFF in H. rewrite !orb_false_r. apply N.leb_gt. exact H.
Qed.

Lemma write_unicode_ok c cs s w : utf8_multi (c :: cs) -> werr w = false ->
  write_unicode c (cs ++ s) w = Ok (s, push (c :: cs) w).
Proof.
  intros (cp & Hcp & E) Hw. destruct (utf8_parts cp c cs Hcp E) as (n & Hn & Hc & Hl & Hlen & Hcs & Hd & Hmin).
  unfold write_unicode. rewrite Hl.
  replace ((4 <? n) || (n <? 2)) with false.
  2:{ symmetry. apply orb_false_iff. split; apply N.ltb_ge; lia. }
  replace (N.of_nat (length (c :: cs ++ s)) <? n) with false.
  2:{ symmetry. apply N.ltb_ge. cbn [length]. assert (L := app_length cs s). nlia. }
  cbv zeta iota. rewrite mask_eq by lia. rewrite <- Hlen, raw_loop_ok by assumption. cbn [bind].
  unfold decode in Hd. rewrite Hd, min_code_test by (assumption || lia). now rewrite push_push.
Qed.

(* ---- strings, escaped ---- *)
Lemma utf8_nonempty cp : exists c cs, utf8 cp = c :: cs.
Proof. unfold utf8. repeat match goal with |- context [if ?b then _ else _] => destruct b end; eauto. Qed.

Lemma fstring_escape d s : utf8_text (fun cp => cp < 0x10000) s -> d_unescape d = true ->
  forall fuel w, w_escape (wopt w) = true -> werr w = false -> (length s <= fuel)%nat ->
  exists x, fstring_loop fuel s w = Ok (push x w) /\ spells d s x.
Proof.
  intros Hs Hd. induction Hs as [|cp s Hcp Hp Hs IH]; intros fuel w He Hw Hf.
  { exists []. rewrite push_nil. split; [destruct fuel; reflexivity|constructor]. }
  destruct (utf8_nonempty cp) as (c & cs & E).
  assert (Lu : length (utf8 cp ++ s) = S (length cs + length s)%nat).
  { rewrite E. cbn. now rewrite app_length. }
  destruct fuel as [|f]; [nlia|]. rewrite E. cbn [app fstring_loop].
  destruct (N.lt_ge_cases cp 0x80) as [Hlo|Hhi].
  - assert (utf8 cp = [cp]) as E1 by (unfold utf8; destruct (N.ltb_spec cp 0x80); [reflexivity|lia]).
    rewrite E1 in E. apply cons_inv in E as [<- <-]. cbn [app].
    rewrite testbit7 by lia. destruct (N.leb_spec 128 cp); [lia|]. cbn [andb].
    destruct (IH f (push (format_char cp) w)) as (x & Ex & Sx); [exact He|exact Hw|cbn in Lu; nlia|].
    exists (format_char cp ++ x). rewrite Ex, push_push. split; [reflexivity|].
    change (cp :: s) with ([cp] ++ s). constructor; [now apply format_char_ok|exact Sx].
  - assert (Hcp' : 0x80 <= cp < 0x200000) by lia.
    destruct (utf8_parts cp c cs Hcp' (eq_sym E)) as (n & Hn & Hc & _).
    rewrite testbit7 by lia. destruct (N.leb_spec 128 c); [|lia]. rewrite He. cbn [andb].
    rewrite (escape_unicode_ok cp c cs s w Hcp' (eq_sym E) Hw). cbn [bind].
    destruct (IH f (push (show_u cp) w)) as (x & Ex & Sx); [exact He|exact Hw|nlia|].
    exists (show_u cp ++ x). rewrite Ex, push_push. split; [reflexivity|].
    destruct (show_u_ok cp Hp) as (h1 & h2 & h3 & h4 & v1 & v2 & v3 & v4 & Eu & Ec & D1 & D2 & D3 & D4).
    rewrite Eu. change (c :: cs ++ s) with ((c :: cs) ++ s). rewrite <- E, Ec. now constructor; [constructor|].
Qed.

Lemma format_string_escape d s w : utf8_text (fun cp => cp < 0x10000) s -> d_unescape d = true ->
  w_escape (wopt w) = true -> werr w = false ->
  exists x, format_string s w = Ok (push (34 :: x ++ [34]) w) /\ spells d s x.
Proof.
  intros Hs Hd He Hw. unfold format_string.
  destruct (fstring_escape d s Hs Hd (length s) (push [34] w) He Hw (le_n _)) as (x & E & Sp).
  exists x. rewrite E. cbn [bind]. rewrite !push_push. split; [reflexivity|exact Sp].
Qed.

(* ---- strings, raw ---- *)
Lemma esc_loop_err n : forall code s w code' s' w', esc_loop n code s w = Ok (code', s', w') -> werr w = true -> werr w' = true.
Proof.
  destruct n; intros code s w code' s' w' H Hw; cbn [esc_loop] in H; [congruence|].
  unfold wok in H. rewrite Hw in H. cbn in H. congruence.
Qed.
Lemma raw_loop_err n : forall code s w code' s' w', raw_loop n code s w = Ok (code', s', w') -> werr w = true -> werr w' = true.
Proof.
  destruct n; intros code s w code' s' w' H Hw; cbn [raw_loop] in H; [congruence|].
  unfold wok in H. rewrite Hw in H. cbn in H. congruence.
Qed.
Lemma raw_loop_inv n : forall code s w code' s' w', raw_loop n code s w = Ok (code', s', w') ->
  byte_string s -> werr w' = false ->
  exists cs, length cs = n /\ Forall contb cs /\ s = cs ++ s' /\ w' = push cs w /\
    code' = fold_left (fun a c => a * 64 + (c - 128)) cs code.
Proof.
  induction n as [|n IH]; intros code s w code' s' w' H Hb Hw; cbn [raw_loop] in H.
  { injection H as <- <- <-. exists []. rewrite push_nil. cbn. repeat split; auto. }
  destruct (wok w) eqn:Ew.
  2:{ injection H as <- <- <-. unfold wok in Ew. rewrite Hw in Ew. discriminate. }
  destruct s as [|c s]; [discriminate|]. inversion Hb as [|? ? Hc Hb']; subst. unfold is_byte in Hc.
  destruct (N.land c 192 =? 128) eqn:Ec.
  - rewrite cont_byte in Ec by assumption. apply andb_true_iff in Ec as [C1 C2].
    apply N.leb_le in C1. apply N.ltb_lt in C2. assert (Hcb : contb c) by (split; lia).
    rewrite (shift_fold c code Hcb) in H. destruct (IH _ _ _ _ _ _ H Hb' Hw) as (cs & L & F & I & P & C).
    exists (c :: cs). rewrite P, push_push. cbn [length app fold_left]. repeat split; auto; congruence.
  - apply raw_loop_err in H; [congruence|reflexivity].
Qed.

Lemma write_unicode_inv c s w s' w' : c < 256 -> byte_string s -> write_unicode c s w = Ok (s', w') -> werr w' = false ->
  exists cs, s = cs ++ s' /\ utf8_multi (c :: cs) /\ w' = push (c :: cs) w /\ werr w = false.
Proof.
  intros Hc Hb H Hw. unfold write_unicode in H. destruct (lead_ones c) as [n|] eqn:El; [|discriminate].
  cbv zeta in H.
  match type of H with context [raw_loop ?k ?q s (push [c] ?w0)] => remember w0 as w2 eqn:Ew2 end.
  match type of H with bind ?x _ = _ => destruct x as [[[code s1] w3]| | | |] eqn:Er end;
    cbn [bind] in H; try discriminate.
  match type of H with (if ?b then _ else _) = _ => destruct b eqn:Eb end; injection H as <- <-; [discriminate|].
  assert (Hw2 : werr w2 = false).
  { destruct (werr w2) eqn:K; auto. apply raw_loop_err in Er; [congruence|exact K]. }
  match type of Ew2 with _ = (if ?b then _ else _) => destruct b end; [rewrite Ew2 in Hw2; discriminate|].
  destruct ((4 <? n) || (n <? 2)) eqn:E2; [rewrite Ew2 in Hw2; discriminate|]. subst w2.
  apply orb_false_iff in E2 as [N1 N2]. apply N.ltb_ge in N1, N2.
  rewrite mask_eq in Er by lia.
  destruct (raw_loop_inv _ _ _ _ _ _ _ Er Hb Hw) as (cs & L & F & I & P & C).
  exists cs. split; [exact I|]. split; [|split; [|exact Hw2]].
  2:{ rewrite P. rewrite push_push. reflexivity. }
  apply (multi_intro c cs n); auto. unfold decode. rewrite <- C.
  destruct (lead_cases c n Hc El) as [[-> _]|[[-> _]|[-> _]]]; [lia| | |].
  - change (2 =? 4) with false in Eb. change (2 =? 3) with false in Eb. change (2 =? 2) with true in Eb. cbn [andb orb] in Eb.
    apply N.leb_gt in Eb. exact Eb.
  - change (3 =? 4) with false in Eb. change (3 =? 3) with true in Eb. change (3 =? 2) with false in Eb. cbn [andb orb] in Eb.
    rewrite orb_false_r in Eb. apply N.leb_gt in Eb. exact Eb.
  - change (4 =? 4) with true in Eb. change (4 =? 3) with false in Eb. change (4 =? 2) with false in Eb. cbn [andb orb] in Eb.
    rewrite !orb_false_r in Eb. apply N.leb_gt in Eb. exact Eb.
Qed.

Lemma raw_loop_total n : forall code s w, (n <= length s)%nat \/ werr w = true ->
  exists code' s' w', raw_loop n code s w = Ok (code', s', w') /\ (length s' <= length s)%nat /\ wopt w' = wopt w.
Proof.
  induction n as [|n IH]; intros code s w H; cbn [raw_loop].
  { exists code, s, w. repeat split; auto. }
  destruct (wok w) eqn:Ew; [|exists code, s, w; repeat split; auto].
  destruct H as [H|H]; [|unfold wok in Ew; rewrite H in Ew; discriminate].
  destruct s as [|c s]; [cbn in H; lia|].
  match goal with |- context [raw_loop n ?k s ?w1] => destruct (IH k s w1) as (code' & s' & w' & E & L & O) end.
  { left. cbn in H. nlia. }
  exists code', s', w'. split; [exact E|]. split; [cbn; lia|]. rewrite O. destruct (_ =? _); reflexivity.
Qed.
Lemma write_unicode_total c s w : c < 255 -> exists s' w', write_unicode c s w = Ok (s', w') /\ (length s' <= length s)%nat /\ wopt w' = wopt w.
Proof.
  intro Hc. unfold write_unicode. destruct (lead_ones c) as [n|] eqn:El; [|apply lead_none in El; lia].
  cbv zeta. match goal with |- context [raw_loop _ _ s (push [c] ?w0)] => remember w0 as w2 eqn:Ew2 end.
  assert (Ho : wopt w2 = wopt w).
  { rewrite Ew2. repeat match goal with |- context [if ?b then _ else _] => destruct b end; reflexivity. }
  assert (Hx : (N.to_nat (n - 1) <= length s)%nat \/ werr (push [c] w2) = true).
  { match type of Ew2 with _ = (if ?a <? ?b then _ else _) => destruct (N.ltb_spec a b) as [H|H] end;
      [right; rewrite Ew2; reflexivity|left]. cbn [length] in H. nlia. }
  match goal with |- context [raw_loop ?k ?q s ?w0] => destruct (raw_loop_total k q s w0 Hx) as (code' & s' & w' & E & L & O) end.
  rewrite E. cbn [bind]. match goal with |- context [if ?b then Ok _ else _] => destruct b end;
    do 2 eexists; (split; [reflexivity|]); cbn; rewrite O; auto.
Qed.

Lemma format_string_opts fuel : forall s w w', fstring_loop fuel s w = Ok w' -> werr w = true -> werr w' = true.
Proof.
  induction fuel as [|f IH]; intros s w w' H Hw; cbn [fstring_loop] in H.
  { destruct s; [congruence|discriminate]. }
  destruct s as [|c s]; [congruence|].
  destruct (N.testbit c 7 && w_escape (wopt w)).
  { destruct (escape_unicode c s w) as [[s1 w1]| | | |] eqn:E; cbn [bind] in H; try discriminate.
    apply IH in H; auto. unfold escape_unicode in E. destruct (lead_ones c); [|discriminate]. cbv zeta in E.
    match type of E with context [esc_loop ?k ?q s ?w0] => destruct (esc_loop k q s w0) as [[[? ?] w3]| | | |] eqn:El;
      assert (Hw0 : werr w0 = true) by (repeat match goal with |- context [if ?b then _ else _] => destruct b end; auto) end; cbn [bind] in E; try discriminate.
    injection E as <- <-. cbn. eapply esc_loop_err; eauto. }
  destruct (N.testbit c 7 && w_validate (wopt w)).
  { destruct (write_unicode c s w) as [[s1 w1]| | | |] eqn:E; cbn [bind] in H; try discriminate.
    apply IH in H; auto. unfold write_unicode in E. destruct (lead_ones c); [|discriminate]. cbv zeta in E.
    match type of E with context [raw_loop ?k ?q s ?w0] => destruct (raw_loop k q s w0) as [[[? ?] w3]| | | |] eqn:El;
      assert (Hw0 : werr w0 = true) by (cbn [werr push]; repeat match goal with |- context [if ?b then _ else _] => destruct b end; auto) end; cbn [bind] in E; try discriminate.
    apply raw_loop_err in El; auto.
    match type of E with (if ?b then _ else _) = _ => destruct b end; injection E as <- <-; auto. }
  apply IH in H; auto.
Qed.

Lemma spells_high d cs : d_validate d = false -> Forall contb cs -> forall vs xs, spells d vs xs -> spells d (cs ++ vs) (cs ++ xs).
Proof.
  intros Hd. induction 1 as [|c cs Hc _ IH]; intros vs xs H; auto. unfold contb in Hc.
  change ((c :: cs) ++ vs) with ([c] ++ cs ++ vs). change ((c :: cs) ++ xs) with ([c] ++ cs ++ xs).
  constructor; auto. apply sp_high; auto. lia.
Qed.
Lemma spells_multi d cs vs xs : utf8_multi cs -> spells d vs xs -> spells d (cs ++ vs) (cs ++ xs).
Proof.
  intros Hm Hs. destruct (d_validate d) eqn:Ed.
  - constructor; auto. now apply sp_utf8.
  - destruct cs as [|c cs]; auto. pose proof Hm as (cp & Hcp & E).
    destruct (utf8_parts cp c cs Hcp E) as (n & _ & Hc & _ & _ & Hcs & _).
    change ((c :: cs) ++ vs) with ([c] ++ cs ++ vs). change ((c :: cs) ++ xs) with ([c] ++ cs ++ xs).
    constructor; [apply sp_high; [exact Ed|lia]|]. now apply spells_high.
Qed.

(* raw printing: what is accepted is valid (when validating) and read back *)
Lemma fstring_raw d fuel : forall s w w', w_escape (wopt w) = false -> byte_string s ->
  fstring_loop fuel s w = Ok w' -> werr w' = false ->
  (w_validate (wopt w) = true -> utf8_text any_cp s) /\
  (w_validate (wopt w) = true \/ d_validate d = false -> exists x, w' = push x w /\ spells d s x).
Proof.
  induction fuel as [|f IH]; intros s w w' He Hb H Hw; cbn [fstring_loop] in H.
  { destruct s; [|discriminate]. injection H as <-. split; [constructor|]. intros _. exists []. rewrite push_nil.
    split; [reflexivity|constructor]. }
  destruct s as [|c s].
  { injection H as <-. split; [constructor|]. intros _. exists []. rewrite push_nil. split; [reflexivity|constructor]. }
  inversion Hb as [|? ? Hc Hb']; subst. unfold is_byte in Hc.
  rewrite He, andb_false_r in H. rewrite testbit7 in H by assumption.
  destruct (N.leb_spec 128 c) as [Hhi|Hlo]; cbn [andb] in H.
  - destruct (w_validate (wopt w)) eqn:Ev.
    + destruct (write_unicode c s w) as [[s1 w1]| | | |] eqn:E; cbn [bind] in H; try discriminate.
      assert (Hw1 : werr w1 = false).
      { destruct (werr w1) eqn:K; auto. apply format_string_opts in H; [congruence|exact K]. }
      destruct (write_unicode_inv c s w s1 w1 Hc Hb' E Hw1) as (cs & -> & Hm & -> & Hww).
      apply Forall_app in Hb' as [_ Hb1].
      destruct (IH s1 (push (c :: cs) w) w' He Hb1 H Hw) as [I1 I2]. cbn [wopt push] in I1, I2. rewrite Ev in I1, I2.
      split.
      * intros _. change (c :: cs ++ s1) with ((c :: cs) ++ s1). apply utf8_multi_text; auto.
      * intros _. destruct I2 as (x & -> & Sx); [now left|]. exists ((c :: cs) ++ x). rewrite push_push.
        split; [reflexivity|]. change (c :: cs ++ s1) with ((c :: cs) ++ s1). now apply spells_multi.
    + destruct (IH s (push (format_char c) w) w' He Hb' H Hw) as [I1 I2]. cbn [wopt push] in I1, I2. rewrite Ev in I1, I2.
      split; [discriminate|]. intros [K|K]; [discriminate|]. destruct I2 as (x & -> & Sx); [now right|].
      rewrite format_char_high in * by assumption. exists ([c] ++ x). rewrite push_push. split; [reflexivity|].
      change (c :: s) with ([c] ++ s). constructor; auto. apply sp_high; auto.
  - destruct (IH s (push (format_char c) w) w' He Hb' H Hw) as [I1 I2]. cbn [wopt push] in I1, I2.
    split.
    + intro K. apply utf8_one; auto.
    + intro K. destruct (I2 K) as (x & -> & Sx). exists (format_char c ++ x). rewrite push_push. split; [reflexivity|].
      change (c :: s) with ([c] ++ s). constructor; auto. now apply format_char_ok.
Qed.

(* valid text is accepted *)
Lemma fstring_valid s : utf8_text any_cp s -> forall fuel w, w_escape (wopt w) = false -> w_validate (wopt w) = true ->
  werr w = false -> (length s <= fuel)%nat -> exists x, fstring_loop fuel s w = Ok (push x w).
Proof.
  induction 1 as [|cp s Hcp _ Hs IH]; intros fuel w He Hv Hw Hf.
  { exists []. rewrite push_nil. destruct fuel; reflexivity. }
  destruct (utf8_nonempty cp) as (c & cs & E).
  assert (Lu : length (utf8 cp ++ s) = S (length cs + length s)%nat).
  { rewrite E. cbn. now rewrite app_length. }
  destruct fuel as [|f]; [nlia|]. rewrite E. cbn [app fstring_loop]. rewrite He, andb_false_r, Hv, andb_true_r.
  destruct (N.lt_ge_cases cp 0x80) as [Hlo|Hhi].
  - assert (utf8 cp = [cp]) as E1 by (unfold utf8; destruct (N.ltb_spec cp 0x80); [reflexivity|lia]).
    rewrite E1 in E. apply cons_inv in E as [<- <-]. cbn [app].
    rewrite testbit7 by lia. destruct (N.leb_spec 128 cp); [lia|].
    destruct (IH f (push (format_char cp) w)) as (x & Ex); auto; [cbn in Lu; nlia|].
    exists (format_char cp ++ x). rewrite Ex, push_push. reflexivity.
  - assert (Hcp' : 0x80 <= cp < 0x200000) by lia.
    destruct (utf8_parts cp c cs Hcp' (eq_sym E)) as (n & Hn & Hc & _).
    rewrite testbit7 by lia. destruct (N.leb_spec 128 c); [|lia].
    rewrite write_unicode_ok; [|exists cp; auto|exact Hw]. cbn [bind].
    destruct (IH f (push (c :: cs) w)) as (x & Ex); auto; [nlia|].
    exists ((c :: cs) ++ x). rewrite Ex, push_push. reflexivity.
Qed.

(* the writer never misbehaves on bytes other than 0xff *)
Lemma fstring_total : forall fuel s w, w_escape (wopt w) = false -> byte_string s -> ~ In 255 s -> (length s <= fuel)%nat ->
  exists w', fstring_loop fuel s w = Ok w'.
Proof.
  induction fuel as [|f IH]; intros s w He Hb H255 Hf; (destruct s as [|c s]; [eexists; reflexivity|]); [cbn in Hf; lia|].
  cbn [fstring_loop]. inversion Hb as [|? ? Hc Hb']; subst. unfold is_byte in Hc.
  rewrite He, andb_false_r.
  assert (Hc255 : c <> 255) by (intros ->; apply H255; now left).
  destruct (N.testbit c 7 && w_validate (wopt w)).
  - destruct (write_unicode_total c s w) as (s' & w' & E & L & O); [lia|]. rewrite E. cbn [bind].
    assert (Hsuf : byte_string s' /\ ~ In 255 s').
    { assert (Hs : exists p, s = p ++ s').
      { clear - E. unfold write_unicode in E. destruct (lead_ones c); [|discriminate]. cbv zeta in E.
        match type of E with context [raw_loop ?k ?q s ?w0] => destruct (raw_loop k q s w0) as [[[? s1] w3]| | | |] eqn:El end;
          cbn [bind] in E; try discriminate.
        assert (s1 = s') as -> by (match type of E with (if ?b then _ else _) = _ => destruct b end; congruence).
        clear E. revert El. match goal with |- raw_loop ?k ?q _ ?w0 = _ -> _ => generalize k q w0 end. clear.
        intros k. revert s. induction k as [|k IH]; intros s q w0 H; cbn [raw_loop] in H.
        - injection H as _ -> _. exists []. reflexivity.
        - destruct (wok w0); [|injection H as _ -> _; exists []; reflexivity].
          destruct s as [|x s]; [discriminate|]. apply IH in H as [p ->]. exists (x :: p). reflexivity. }
      destruct Hs as [p ->]. apply Forall_app in Hb' as [_ Hb']. split; auto. intro K. apply H255. right.
      apply in_or_app. now right. }
    apply IH; try tauto; [congruence|cbn in Hf; lia].
  - apply IH; auto; [intro K; apply H255; now right|cbn in Hf; lia].
Qed.

(* ---- integers ---- *)
Lemma dec_val_undec s : forall acc, dec_val s acc = undec_from acc s.
Proof.
  unfold undec_from. induction s as [|c s IH]; intro acc; cbn [dec_val fold_left]; auto. rewrite IH. do 2 f_equal. lia.
Qed.
Lemma dec_digits' n : digits (dec n).
Proof.
  unfold digits. eapply Forall_impl; [|apply dec_digits]. intros c H. apply is_digit_iff in H. exact H.
Qed.
Lemma show_int_text z : int_text z (show_int z).
Proof.
  unfold show_int. destruct (Z.ltb_spec z 0).
  - assert (E : z = (- Z.of_N (dec_val (dec (Z.to_N (- z))) 0))%Z).
    { rewrite dec_val_undec. change (undec_from 0 (dec (Z.to_N (- z)))) with (undec (dec (Z.to_N (- z)))).
      rewrite undec_dec, Z2N.id; lia. }
    rewrite E at 1. constructor; [apply dec_nonempty|apply dec_digits'].
  - assert (E : z = Z.of_N (dec_val (dec (Z.to_N z)) 0)).
    { rewrite dec_val_undec. change (undec_from 0 (dec (Z.to_N z))) with (undec (dec (Z.to_N z))).
      rewrite undec_dec, Z2N.id; lia. }
    rewrite E at 1. constructor; [apply dec_nonempty|apply dec_digits'].
Qed.
Lemma stol_ok z x : int_text z x -> int64 z -> stol x = Ok z.
Proof.
  unfold int64. intros H Hz.
  assert (T : ((- 2 ^ 63 <=? z) && (z <? 2 ^ 63))%Z = true).
  { apply andb_true_iff. split; [apply Z.leb_le|apply Z.ltb_lt]; lia. }
  destruct H as [s Hn Hd|s Hn Hd]; unfold stol.
  - rewrite dec_val_undec in *. change (undec_from 0 s) with (undec s) in *.
    destruct s as [|c s]; [contradiction|]. inversion Hd as [|? ? Hc _]; subst. unfold digit_char in Hc.
    destruct (N.eqb_spec c 45); [lia|]. cbv zeta iota. rewrite T. reflexivity.
  - rewrite dec_val_undec in *. change (undec_from 0 s) with (undec s) in *.
    change (45 =? 45) with true. cbv zeta iota. destruct s as [|c s]; [contradiction|]. rewrite T. reflexivity.
Qed.
