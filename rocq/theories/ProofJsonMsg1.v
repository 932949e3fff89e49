(* ProofJsonMsg1.v - what the reader's errors quote (C88): the buffer is never longer than
   the text read, and a quoted character is the last one read. *)
From Coq Require String. Import String.StringSyntax.
From Verif Require Import Base Dec ModelJson ModelJsonW ModelJsonT SpecJson ProofJson1 ProofJson2 ProofJson3 ProofJson4 ProofJson5.
Local Open Scope outcome_scope.
Local Open Scope N_scope.

Section Quoted.
Context (doc : str).

(* c is the last byte read before i, or the text ended there *)
Definition lastc (c : N) (i : str) (f : bool) : Prop :=
  ((exists x, doc = x ++ c :: i) /\ f = false) \/ (c = 255 /\ i = [] /\ f = true).
Definition good (r : reader) (c : cause) : Prop :=
  match c with
  | ELiteral l => In l [lit "ull"; lit "rue"; lit "alse"]
  | EHex x | EEscape x => lastc x (rin r) (rfail r)
  | EUtf8Head x => lastc x (rin r) (rfail r) /\ 128 <= x
  | EChar x => (exists y, doc = y ++ x :: rin r) /\ rfail r = false /\ isspace x = false
  | EUnexpected _ _ t | EUnknown _ t => (length t <= length doc + 2)%nat
  | _ => True
  end.
Definition slack (r : reader) : nat := if rfail r then 2%nat else 1%nat.
Definition inv (k : nat) (r : reader) : Prop :=
  (reof r = true -> rin r = []) /\
  match rerr r with
  | None => exists x, doc = x ++ rin r /\ (length (rbuf r) + k <= length x + slack r)%nat
  | Some e => good r (err_cause e)
  end.

Lemma inv_le k k' r : (k' <= k)%nat -> inv k r -> inv k' r.
Proof. unfold inv. intros L (I0 & I). split; [exact I0|]. destruct (rerr r); auto. destruct I as (x & A & B). exists x. split; [exact A|lia]. Qed.
Lemma inv_tok k t r : inv k (set_tok t r) <-> inv k r.
Proof. reflexivity. Qed.
Lemma inv_save k c r : inv (S k) r -> inv k (save c r).
Proof.
  unfold inv, save, set_buf. cbn [rerr rin rbuf reof]. intros (I0 & I). split; [exact I0|]. destruct (rerr r) as [e|] eqn:E; [exact I|].
  destruct I as (x & A & B). exists x. split; [exact A|]. rewrite app_length. cbn [length]. unfold slack in *. cbn [rfail]. nlia.
Qed.
Lemma inv_reset k r : inv k r -> inv 1 (reset_buf r).
Proof.
  unfold inv, reset_buf, set_buf. cbn [rerr rin rbuf reof length]. intros (I0 & I). split; [exact I0|]. destruct (rerr r) as [e|] eqn:E; [exact I|].
  destruct I as (x & A & B). exists x. split; [exact A|]. unfold slack. cbn [rfail]. destruct (rfail r); lia.
Qed.
Lemma inv_newline k r : inv k r -> inv k (newline r).
Proof. intro H. exact H. Qed.
Lemma inv_err k k' c r : inv k r -> (rerr r = None -> good r c) -> inv k' (rerror_set c r).
Proof.
  intros (I0 & I) G. unfold inv, rerror_set in *. destruct (rerr r) as [e|] eqn:E; [rewrite E; auto|].
  cbn [rerr rin reof err_cause]. split; [exact I0|]. exact (G eq_refl).
Qed.
Lemma inv_bad k k' r e : rerr r = Some e -> inv k r -> inv k' r.
Proof. unfold inv. intros ->. auto. Qed.
Lemma inv_len k r : rerr r = None -> inv k r -> (length (rbuf r) + k <= length doc + 2)%nat.
Proof.
  unfold inv. intros -> (_ & x & A & B). assert (L : (length x <= length doc)%nat) by (rewrite A, app_length; lia).
  unfold slack in B. destruct (rfail r); nlia.
Qed.

Lemma inv_pop k r c r' : rok r = true -> popc r = (c, r') -> inv k r ->
  rerr r' = None /\ inv (S k) r' /\ lastc c (rin r') (rfail r').
Proof.
  intros Ok0 E (I0 & H). pose proof Ok0 as Ok1. unfold rok in Ok1. destruct (rerr r) as [e|] eqn:En; [discriminate|].
  assert (F : rfail r = false) by now destruct (rfail r). clear Ok1.
  destruct H as (x & A & B). unfold slack in B. rewrite F in B.
  unfold popc in E. rewrite F, orb_false_r in E. destruct (reof r) eqn:Ee.
  - injection E as <- <-. unfold inv, slack. cbn [rerr rin rbuf rfail reof]. rewrite En. split; [reflexivity|]. split.
    + split; [intros _; exact (I0 eq_refl)|]. exists x. split; [exact A|nlia].
    + right. rewrite (I0 eq_refl). auto.
  - destruct (rin r) as [|y s] eqn:Ei; injection E as <- <-; unfold inv, slack; cbn [rerr rin rbuf rfail reof]; rewrite ?En; (split; [reflexivity|]; split).
    + split; [auto|]. exists x. split; [exact A|nlia].
    + right. auto.
    + split; [congruence|]. exists (x ++ [y]). rewrite <- app_assoc. split; [exact A|]. rewrite app_length. cbn [length]. rewrite ?F. nlia.
    + left. split; [exists x; exact A|first [exact F|reflexivity]].
Qed.
Lemma inv_peek k r c r' : rerr r = None -> peekc r = (c, r') -> inv k r ->
  rerr r' = None /\ inv k r' /\ rin r' = rin r /\ (rfail r' = false -> rfail r = false) /\ (c <> c_eof -> r' = r).
Proof.
  intros En. unfold peekc, inv, slack. rewrite En. destruct (reof r || rfail r) eqn:Eo.
  { intros E (I0 & x & A & B). injection E as <- <-. cbn [rerr rin rbuf rfail reof]. rewrite ?En. split; [reflexivity|]. split.
    - split; [exact I0|]. exists x. split; [exact A|]. destruct (rfail r); lia.
    - split; [reflexivity|]. split; [discriminate|]. intro H. now destruct H. }
  destruct (rin r) as [|y s] eqn:Ei; intros E (I0 & x & A & B); injection E as <- <-; cbn [rerr rin rbuf rfail reof]; rewrite ?En, ?Ei.
  - split; [reflexivity|]. split; [split; [auto|]; exists x; auto|]. split; [reflexivity|]. split; [auto|]. intro H. now destruct H.
  - split; [reflexivity|]. split; [split; [auto|]; exists x; auto|]. auto.
Qed.
Lemma rok_none r : rok r = true -> rerr r = None /\ rfail r = false.
Proof. unfold rok. destruct (rerr r); [discriminate|]. destruct (rfail r); [discriminate|auto]. Qed.
Lemma none_rok r : rerr r = None -> rfail r = false -> rok r = true.
Proof. unfold rok. now intros -> ->. Qed.
Lemma lastc_rok c r : rerr r = None -> lastc c (rin r) (rfail r) -> c <> 255 -> rok r = true.
Proof. intros En [(_ & F)|(K & _)] H; [now apply none_rok|contradiction]. Qed.

Lemma inv_skip_comment : forall f r r', inv 0 r -> skip_comment f r = Ok r' -> inv 0 r'.
Proof.
  induction f as [|f IH]; intros r r' I E; [discriminate|]. cbn [skip_comment] in E. destruct (rok r) eqn:Ok0; [|injection E as <-; exact I].
  destruct (popc r) as [c r1] eqn:Ep. destruct (inv_pop _ _ _ _ Ok0 Ep I) as (_ & I1 & _).
  apply (inv_le _ 0) in I1; [|lia]. destruct (c =? c_nl); [injection E as <-; exact I1|eauto].
Qed.
Lemma inv_next_char : forall f r c r', inv 0 r -> next_char f r = Ok (c, r') ->
  inv 0 r' /\ (rok r' = true -> (exists y, doc = y ++ c :: rin r') /\ isspace c = false).
Proof.
  induction f as [|f IH]; intros r c r' I E; [discriminate|]. cbn [next_char] in E. destruct (rok r) eqn:Ok0.
  2:{ injection E as <- <-. split; [exact I|]. congruence. }
  destruct (popc r) as [x r0] eqn:Ep. destruct (inv_pop _ _ _ _ Ok0 Ep I) as (N0 & I1 & L).
  apply (inv_le _ 0) in I1; [|lia]. set (r1 := if x =? c_nl then newline r0 else r0) in E.
  assert (H1 : rerr r1 = None /\ inv 0 r1 /\ rin r1 = rin r0 /\ rfail r1 = rfail r0) by (unfold r1; destruct (x =? c_nl); auto).
  clearbody r1. destruct H1 as (N1 & I2 & Ei & Ef). rewrite <- Ei, <- Ef in L. clear Ei Ef I1 N0.
  destruct (isspace x) eqn:Es; [eapply IH; eauto|].
  assert (Hend : forall r2, rin r2 = rin r1 -> (rfail r2 = false -> rfail r1 = false) -> rok r2 = true ->
     (exists y, doc = y ++ x :: rin r2) /\ isspace x = false).
  { intros r2 A B O2. rewrite A. destruct (rok_none _ O2) as (_ & F). destruct L as [(K & _)|(_ & _ & K)]; [auto|]. rewrite (B F) in K. discriminate. }
  destruct (x =? c_slash).
  2:{ injection E as <- <-. split; [exact I2|]. apply Hend; auto. }
  destruct (peekc r1) as [d r2] eqn:Ek. destruct (inv_peek _ _ _ _ N1 Ek I2) as (N2 & I3 & Ei & Ef & _).
  destruct (d =? c_slash).
  2:{ injection E as <- <-. split; [exact I3|]. apply Hend; auto. }
  binv E. eapply IH; [|exact E]. eapply inv_skip_comment; [|exact K]. destruct (o_comments (ropt r2)); [exact I3|]. eapply inv_err; [exact I3|]. intros _. exact Logic.I.
Qed.
Lemma inv_literal_loop : forall l r, inv 0 r -> inv 0 (snd (literal_loop l r)).
Proof.
  induction l as [|x l IH]; intros r I; cbn [literal_loop]; [exact I|]. destruct (rok r) eqn:Ok0; [|exact I].
  destruct (popc r) as [c r1] eqn:Ep. destruct (inv_pop _ _ _ _ Ok0 Ep I) as (_ & I1 & _). apply (inv_le _ 0) in I1; [|lia].
  destruct (c =? x); [auto|exact I1].
Qed.
Lemma inv_literal l r : In l [lit "ull"; lit "rue"; lit "alse"] -> inv 0 r -> inv 0 (read_literal l r).
Proof.
  intros Hl I. unfold read_literal. apply (inv_literal_loop l) in I. destruct (literal_loop l r) as [rest r1]. cbn [snd] in I.
  destruct rest; [exact I|]. eapply inv_err; [exact I|]. intros _. exact Hl.
Qed.
Lemma inv_hex_loop : forall n k code r, inv k r ->
  inv k (snd (hex_loop n code r)) /\ (rok (snd (hex_loop n code r)) = true -> inv (k + n) (snd (hex_loop n code r))).
Proof.
  induction n as [|n IH]; intros k code r I; cbn [hex_loop]. { cbn. rewrite Nat.add_0_r. auto. }
  destruct (rok r) eqn:Ok0; [|cbn; split; [exact I|congruence]].
  destruct (popc r) as [c r1] eqn:Ep. destruct (inv_pop _ _ _ _ Ok0 Ep I) as (N1 & I1 & L).
  destruct (hexval c) as [v|].
  - destruct (IH (S k) (N.lor (N.shiftl code 4) v) r1 I1) as (A & B). split; [eapply inv_le; [|exact A]; lia|].
    intro O. replace (k + S n)%nat with (S k + n)%nat by lia. auto.
  - assert (I2 : inv (S k) (rerror_set (EHex c) r1)) by (eapply inv_err; [exact I1|intros _; exact L]).
    destruct (IH (S k) (N.shiftl code 4) _ I2) as (A & B). split; [eapply inv_le; [|exact A]; lia|].
    intro O. replace (k + S n)%nat with (S k + n)%nat by lia. auto.
Qed.
Lemma inv_save_code code r r' : inv 4 r -> save_code code r = Ok r' -> inv 0 r'.
Proof.
  intros I E. unfold save_code in E.
  repeat match type of E with (if ?b then _ else _) = _ => destruct b end; injection E as <- || discriminate.
  - apply inv_save. eapply inv_le; [|exact I]. lia.
  - do 2 apply inv_save. eapply inv_le; [|exact I]. lia.
  - do 3 apply inv_save. eapply inv_le; [|exact I]. lia.
  - do 4 apply inv_save. exact I.
Qed.
Lemma inv_raw_hex : forall n r, inv 0 r -> inv 0 (raw_hex_loop n r).
Proof.
  induction n as [|n IH]; intros r I; cbn [raw_hex_loop]; [exact I|]. destruct (rok r) eqn:Ok0; [|exact I].
  destruct (popc r) as [c r1] eqn:Ep. destruct (inv_pop _ _ _ _ Ok0 Ep I) as (N1 & I1 & L).
  destruct (hexval c); apply IH; [now apply inv_save|]. eapply inv_err; [exact I1|]. intros _. exact L.
Qed.
Lemma ok_inj {A} (a b : A) : Ok a = Ok b -> a = b.
Proof. congruence. Qed.
Lemma inv_unicode r r' : inv 2 r -> read_unicode r = Ok r' -> inv 0 r'.
Proof.
  intros I E. unfold read_unicode in E. destruct (o_unescape (ropt r)).
  - unfold unescape_unicode in E. destruct (inv_hex_loop 4 2 0 r I) as (A & B). destruct (hex_loop 4 0 r) as [code r1]. cbn [snd] in *.
    destruct (rok r1); [|injection E as <-; eapply inv_le; [|exact A]; lia].
    eapply inv_save_code; [|exact E]. eapply inv_le; [|exact (B eq_refl)]. lia.
  - apply ok_inj in E. subst r'. apply inv_raw_hex. do 2 apply inv_save. exact I.
Qed.
Lemma inv_cont : forall n code r, inv 0 r -> inv 0 (snd (cont_loop n code r)).
Proof.
  induction n as [|n IH]; intros code r I; cbn [cont_loop]; [exact I|]. destruct (rok r) eqn:Ok0; [|exact I].
  destruct (popc r) as [c r1] eqn:Ep. destruct (inv_pop _ _ _ _ Ok0 Ep I) as (N1 & I1 & _). apply inv_save with (c := c) in I1.
  destruct (N.land c 192 =? 128); apply IH; [exact I1|]. eapply inv_err; [exact I1|]. intros _. exact Logic.I.
Qed.
Lemma inv_validate c r r' : inv 1 r -> lastc c (rin r) (rfail r) -> 128 <= c -> validate_unicode c r = Ok r' -> inv 0 r'.
Proof.
  intros I L Hc E. unfold validate_unicode in E. destruct (lead_ones c) as [b|]; [|discriminate].
  apply inv_save with (c := c) in I.
  set (r1 := if (4 <? b) || (b <? 2) then rerror_set (EUtf8Head c) (save c r) else save c r) in E.
  assert (I1 : inv 0 r1) by (unfold r1; destruct (_ || _); [eapply inv_err; [exact I|]; intros _; split; assumption|exact I]).
  clearbody r1. cbv zeta in E.
  match type of E with context [cont_loop ?n ?k r1] => pose proof (inv_cont n k r1 I1) as I2; destruct (cont_loop n k r1) as [code r2] end.
  cbn [snd] in I2. match type of E with (if ?b then _ else _) = _ => destruct b end; injection E as <-; [exact I2|].
  eapply inv_err; [exact I2|]. intros _. exact Logic.I.
Qed.
Lemma inv_string : forall f r r', inv 0 r -> string_loop f r = Ok r' -> inv 0 r'.
Proof.
  induction f as [|f IH]; intros r r' I E; [discriminate|]. cbn [string_loop] in E. destruct (rok r) eqn:Ok0.
  2:{ injection E as <-. eapply inv_err; [exact I|]. intros _. exact Logic.I. }
  destruct (popc r) as [c r1] eqn:Ep. destruct (inv_pop _ _ _ _ Ok0 Ep I) as (N1 & I1 & L).
  destruct (c =? c_nl). { eapply IH; [|exact E]. eapply inv_err; [exact I1|]. intros _. exact Logic.I. }
  destruct (N.testbit c 7 && o_validate (ropt r1)) eqn:Eb.
  { apply andb_true_iff in Eb as (Eb & _). binv E. eapply IH; [|exact E]. eapply inv_validate; [exact I1|exact L| |exact K].
    destruct (N.leb_spec 128 c) as [|Hlt]; [assumption|]. exfalso. 
    assert (Z : c = 0 \/ 0 < c) by lia. destruct Z as [->|Z]; [discriminate|].
    rewrite N.bits_above_log2 in Eb; [discriminate|]. apply N.log2_lt_pow2; [exact Z|]. exact Hlt. }
  destruct (c =? c_quote). { injection E as <-. eapply inv_le; [|exact I1]. lia. }
  destruct (N.eqb_spec c c_bslash) as [->|Hb].
  2:{ eapply IH; [|exact E]. now apply inv_save. }
  assert (Ok1 : rok r1 = true) by (eapply lastc_rok; [exact N1|exact L|discriminate]).
  destruct (popc r1) as [e r2] eqn:Ep2. destruct (inv_pop _ _ _ _ Ok1 Ep2 I1) as (N2 & I2 & L2).
  destruct (e =? 117). { binv E. eapply IH; [|exact E]. eapply inv_unicode; eauto. }
  destruct (escape_value e).
  - eapply IH; [|exact E]. apply inv_save. eapply inv_le; [|exact I2]. lia.
  - injection E as <-. eapply inv_err; [exact I2|]. intros _. exact L2.
Qed.
Lemma inv_digits : forall f r r', inv 0 r -> digits_loop f r = Ok r' -> inv 0 r'.
Proof.
  induction f as [|f IH]; intros r r' I E; [discriminate|]. cbn [digits_loop] in E. destruct (rok r) eqn:Ok0; [|injection E as <-; exact I].
  destruct (rok_none _ Ok0) as (N0 & _). destruct (peekc r) as [c r1] eqn:Ek. destruct (inv_peek _ _ _ _ N0 Ek I) as (N1 & I1 & _ & _ & Q).
  destruct (isdigit c) eqn:Ed; [|injection E as <-; exact I1].
  assert (Hc : c <> c_eof) by (intros ->; discriminate). rewrite (Q Hc) in E.
  destruct (popc r) as [d r2] eqn:Ep. destruct (inv_pop _ _ _ _ Ok0 Ep I) as (_ & I2 & _). eapply IH; [|exact E]. now apply inv_save.
Qed.
Lemma inv_char x r : x <> c_eof -> inv 0 r -> inv 0 (snd (read_char x r)).
Proof.
  intros Hx I. unfold read_char. destruct (rok r) eqn:Ok0; [|exact I].
  destruct (rok_none _ Ok0) as (N0 & _). destruct (peekc r) as [c r1] eqn:Ek. destruct (inv_peek _ _ _ _ N0 Ek I) as (N1 & I1 & _ & _ & Q).
  destruct (N.eqb_spec c x) as [->|]; [|exact I1]. rewrite (Q Hx).
  destruct (popc r) as [d r2] eqn:Ep. destruct (inv_pop _ _ _ _ Ok0 Ep I) as (_ & I2 & _). now apply inv_save.
Qed.
Lemma inv_chars x y r : x <> c_eof -> y <> c_eof -> inv 0 r -> inv 0 (snd (read_chars x y r)).
Proof.
  intros Hx Hy I. unfold read_chars. destruct (rok r) eqn:Ok0; [|exact I].
  destruct (rok_none _ Ok0) as (N0 & _). destruct (peekc r) as [c r1] eqn:Ek. destruct (inv_peek _ _ _ _ N0 Ek I) as (N1 & I1 & _ & Hf & Q).
  destruct (N.eqb_spec c x) as [->|].
  { rewrite (Q Hx). destruct (popc r) as [d r2] eqn:Ep. destruct (inv_pop _ _ _ _ Ok0 Ep I) as (_ & I2 & _). now apply inv_save. }
  destruct (peekc r1) as [c2 r2] eqn:Ek2. destruct (inv_peek _ _ _ _ N1 Ek2 I1) as (N2 & I2 & _ & Hf2 & Q2).
  destruct (N.eqb_spec c2 y) as [->|]; [|exact I2]. rewrite (Q2 Hy) in *.
  assert (Ok1 : rok r1 = true).
  { apply none_rok; [exact N1|]. unfold peekc in Ek2. destruct (reof r1 || rfail r1) eqn:F; [injection Ek2 as Z _; subst y; now destruct Hy|].
    apply orb_false_iff in F. apply F. }
  destruct (popc r1) as [d r3] eqn:Ep. destruct (inv_pop _ _ _ _ Ok1 Ep I1) as (_ & I3 & _). now apply inv_save.
Qed.
Lemma inv_number c r t r' : inv 0 r -> read_number c r = Ok (t, r') -> inv 0 r'.
Proof.
  intros I E. unfold read_number in E. apply inv_reset in I. apply inv_save with (c := c) in I.
  binv E. rename a into r1. apply inv_digits in K; [|exact I].
  assert (I2 := inv_char 46 r1 ltac:(discriminate) K). destruct (read_char 46 r1) as [dot r2]. cbn [snd] in I2.
  binv E. rename a into r3. assert (I3 : inv 0 r3) by (destruct dot; [eapply inv_digits; eauto|injection K0 as <-; exact I2]).
  assert (I4 := inv_chars 101 69 r3 ltac:(discriminate) ltac:(discriminate) I3). destruct (read_chars 101 69 r3) as [ex r4]. cbn [snd] in I4.
  binv E. rename a into r5. injection E as <- <-. destruct ex; [|injection K1 as <-; exact I4].
  eapply inv_digits; [|exact K1]. apply inv_chars; [discriminate|discriminate|exact I4].
Qed.
Lemma inv_lex r t r' : inv 0 r -> lex_token r = Ok (t, r') -> inv 0 r'.
Proof.
  intros I E. unfold lex_token in E. destruct (negb (rok r)); [injection E as <- <-; exact I|].
  binv E. destruct a as [c r1]. destruct (inv_next_char _ _ _ _ I K) as (I1 & L).
  destruct (rok r1) eqn:Ok1; cbn [negb] in E; [|injection E as <- <-; exact I1]. destruct (L eq_refl) as (Hd & Hs).
  repeat match type of E with
  | (if ?b then Ok _ else _) = _ => destruct b; [injection E as <- <-; first [exact I1|apply inv_literal; [cbn; auto|exact I1]]|]
  end.
  destruct (c =? c_quote). { binv E. injection E as <- <-. eapply inv_string; [|exact K0]. eapply inv_le; [|eapply inv_reset; exact I1]; auto. }
  destruct ((c =? 45) || isdigit c); [eapply inv_number; eauto|].
  injection E as <- <-. eapply inv_err; [exact I1|]. intros _. cbn. destruct (rok_none _ Ok1) as (_ & F). auto.
Qed.
Lemma inv_steps r r' : rsteps r r' -> inv 0 r -> inv 0 r'.
Proof.
  induction 1 as [r|r t r1 r2 E _ IH|r t r2 _ IH|r c r2 Hq _ IH]; intro I.
  - exact I.
  - apply IH. eapply inv_lex; eauto.
  - apply IH. exact I.
  - apply IH. eapply inv_err; [exact I|]. intro En. pose proof (inv_len _ _ En I) as Hl.
    destruct c; cbn in Hq; try contradiction; cbn; subst; (exact Logic.I || nlia).
Qed.
End Quoted.
Lemma inv_init s o : inv s 0 (reader_init o s).
Proof. split; [discriminate|]. exists []. cbn. split; [reflexivity|]. lia. Qed.
