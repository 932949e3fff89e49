(* ProofJsonA3.v - inversion of the tokenizer: whole tokens, and of the generic parser skip *)
From Coq Require String. Import String.StringSyntax.
From Verif Require Import Base Dec ModelJson SpecJson SpecJsonA ProofJson1 ProofJson2 ProofJson3 ProofJson4 ProofJson5 ProofJson8 ProofJsonA1 ProofJsonA2.
Local Open Scope outcome_scope.
Local Open Scope N_scope.

(* the token the reader makes of an accepted token: a lone minus is an Int token *)
Definition kind (a : atok) (t : token) : Prop := t = tok_of a \/ (a = AFloat [45] /\ t = TInt).
Definition pay (a : atok) (b b' : str) : Prop :=
  match a with AStr s => b' = s | AInt z => int_text z b' | AFloat x => b' = x | _ => b' = b end.

Lemma int_chars z x : int_text z x -> forall c, In c x -> c = 45 \/ digit_char c.
Proof.
  intros H c Hc. inversion H as [s N D|s N D]; subst.
  - right. unfold digits in D. rewrite Forall_forall in D. auto.
  - destruct Hc as [<-|Hc]; [now left|]. right. unfold digits in D. rewrite Forall_forall in D. auto.
Qed.
Lemma not_int_frac c ds fr ex z : sloppy_frac fr -> sloppy_exp ex -> fr <> [] \/ ex <> [] -> ~ int_text z (c :: ds ++ fr ++ ex).
Proof.
  intros F X N H. pose proof (int_chars _ _ H) as K.
  assert (B : forall a, In a fr \/ In a ex -> a = 45 \/ digit_char a).
  { intros a Ha. apply K. right. rewrite !in_app_iff. tauto. }
  destruct F as [->|(d1 & -> & _)].
  - destruct X as [->|(e & sg & d2 & He & _ & _ & ->)]; [destruct N; congruence|].
    specialize (B e (or_intror (or_introl eq_refl))). unfold digit_char in B. lia.
  - specialize (B 46 (or_introl (or_introl eq_refl))). unfold digit_char in B. lia.
Qed.
Lemma int_text_lone z : ~ int_text z [45].
Proof.
  intro H. inversion H as [s N D|s N D]; subst.
  - inversion D as [|? ? X _]; subst. unfold digit_char in X. lia.
  - now apply N.
Qed.
Lemma number_int c ds : c = 45 \/ digit_char c -> digits ds -> c :: ds <> [45] -> exists z, int_text z (c :: ds).
Proof.
  intros [->|Hc] Hd N.
  - eexists. apply it_neg; [|exact Hd]. intros ->. now apply N.
  - eexists. apply it_pos; [discriminate|]. now constructor.
Qed.


(* a number read up to the end of the text *)
Definition at_end (o : ropts) (w : str) (a : atok) (x : str) (t : token) (r : reader) : Prop :=
  blank (dia o) w /\ is_num a /\ tok_accept (dia o) a x /\ kind a t /\ rbuf r = x /\ open_number x.
Lemma at_end_num o w a x t r : at_end o w a x t r -> t = TInt \/ t = TFloat.
Proof. intros (_ & N & _ & [->|(_ & ->)] & _); [destruct a; try contradiction; cbn; auto|auto]. Qed.

Lemma lex_inv o s b r t r' : Q o s b TNone r -> byte_string s -> lex_token r = Ok (t, r') ->
  (rok r' = true -> exists w a x s' b', s = w ++ x ++ s' /\ blank (dia o) w /\ tok_accept (dia o) a x /\ kind a t /\
     Q o s' b' TNone r' /\ pay a b b' /\ (is_num a -> longest x s')) /\
  (ended r' -> (t = TEOS /\ blank_end (dia o) s) \/
     (exists w a x, s = w ++ x /\ at_end o w a x t r')).
Proof.
  intros H Hb E. unfold lex_token in E. rewrite (Q_ok _ _ _ _ _ H) in E. cbn [negb] in E.
  apply bind_Ok in E as ([c r1] & E1 & E).
  destruct (next_char_inv _ _ _ _ _ _ _ _ H E1) as (A & B).
  destruct (rok r1) eqn:Er1; cbn [negb] in E.
  2:{ injection E as <- <-. split; [intro X; congruence|]. intro En. left. auto. }
  destruct (A eq_refl) as (w & s1 & -> & Bw & Esp & H1). clear A B.
  assert (Hb1 : byte_string s1) by (apply Forall_app in Hb as (_ & X); now inversion X).
  assert (Hc : c < 256) by (apply Forall_app in Hb as (_ & X); now inversion X).
  assert (one : forall a, ~ is_num a -> tok_text (dia o) a [c] -> pay a b b -> t = tok_of a -> r' = r1 -> c <> 47 ->
    (rok r' = true -> exists w' a x s' b', w ++ c :: s1 = w' ++ x ++ s' /\ blank (dia o) w' /\ tok_accept (dia o) a x /\ kind a t /\
       Q o s' b' TNone r' /\ pay a b b' /\ (is_num a -> longest x s')) /\
    (ended r' -> (t = TEOS /\ blank_end (dia o) (w ++ c :: s1)) \/
       (exists w' a x, w ++ c :: s1 = w' ++ x /\ at_end o w' a x t r'))).
  { intros a Nn Ha Hp Ht -> Hn. split.
    - intros _. exists w, a, [c], s1, b. split; [reflexivity|]. split; [exact Bw|]. split; [now apply ta_text|].
      split; [now left|]. split; [apply R_Q; auto|]. split; [exact Hp|intro; contradiction].
    - intros (_ & En). destruct (H1 Hn) as (p & l & ->). discriminate En. }
  assert (litc : forall a l, ~ is_num a -> ~ In 255 l -> tok_text (dia o) a (c :: l) -> pay a b b -> t = tok_of a -> r' = read_literal l r1 -> c <> 47 ->
    (rok r' = true -> exists w' a x s' b', w ++ c :: s1 = w' ++ x ++ s' /\ blank (dia o) w' /\ tok_accept (dia o) a x /\ kind a t /\
       Q o s' b' TNone r' /\ pay a b b' /\ (is_num a -> longest x s')) /\
    (ended r' -> (t = TEOS /\ blank_end (dia o) (w ++ c :: s1)) \/
       (exists w' a x, w ++ c :: s1 = w' ++ x /\ at_end o w' a x t r'))).
  { intros a l Nn Hl Ha Hp Ht -> Hn.
    destruct (read_literal_inv o b TNone l s1 r1 Hl (H1 Hn)) as [(s2 & -> & H2)|X].
    - split.
      + intros _. exists w, a, (c :: l), s2, b. split; [reflexivity|]. split; [exact Bw|]. split; [now apply ta_text|].
        split; [now left|]. split; [apply R_Q; auto|]. split; [exact Hp|intro; contradiction].
      + intros (_ & En). destruct H2 as (p & q & H2). rewrite H2 in En. discriminate En.
    - split; [unfold rok; destruct (rerr (read_literal l r1)); [discriminate|congruence]|]. intros (En & _). congruence. }
  Ltac byc E := apply N.eqb_eq in E; subst.
  destruct (c =? 123) eqn:C1; [byc C1; injection E as <- <-; apply (one AObjS); [exact (fun x => x)|constructor|reflexivity|reflexivity|reflexivity|discriminate]|].
  destruct (c =? 125) eqn:C2; [byc C2; injection E as <- <-; apply (one AObjE); [exact (fun x => x)|constructor|reflexivity|reflexivity|reflexivity|discriminate]|].
  destruct (c =? 91) eqn:C3; [byc C3; injection E as <- <-; apply (one AArrS); [exact (fun x => x)|constructor|reflexivity|reflexivity|reflexivity|discriminate]|].
  destruct (c =? 93) eqn:C4; [byc C4; injection E as <- <-; apply (one AArrE); [exact (fun x => x)|constructor|reflexivity|reflexivity|reflexivity|discriminate]|].
  destruct (c =? 44) eqn:C5; [byc C5; injection E as <- <-; apply (one ASep); [exact (fun x => x)|constructor|reflexivity|reflexivity|reflexivity|discriminate]|].
  destruct (c =? 58) eqn:C6; [byc C6; injection E as <- <-; apply (one AKey); [exact (fun x => x)|constructor|reflexivity|reflexivity|reflexivity|discriminate]|].
  destruct (c =? 110) eqn:C7; [byc C7; assert (X : t = TNull /\ r' = read_literal (lit "ull") r1) by (split; congruence); destruct X;
    apply (litc ANull (lit "ull")); [exact (fun x => x)|cbn; intuition discriminate|constructor|reflexivity|assumption|assumption|discriminate]|].
  destruct (c =? 116) eqn:C8; [byc C8; assert (X : t = TBool true /\ r' = read_literal (lit "rue") r1) by (split; congruence); destruct X;
    apply (litc (ABool true) (lit "rue")); [exact (fun x => x)|cbn; intuition discriminate|constructor|reflexivity|assumption|assumption|discriminate]|].
  destruct (c =? 102) eqn:C9; [byc C9; assert (X : t = TBool false /\ r' = read_literal (lit "alse") r1) by (split; congruence); destruct X;
    apply (litc (ABool false) (lit "alse")); [exact (fun x => x)|cbn; intuition discriminate|constructor|reflexivity|assumption|assumption|discriminate]|].
  clear one litc.
  destruct (c =? c_quote) eqn:C10.
  { apply N.eqb_eq in C10. subst c. apply bind_Ok in E as (r2 & E2 & E). injection E as <- <-.
    destruct (read_string_inv _ _ _ _ _ _ (H1 ltac:(discriminate)) Hb1 E2) as [(v & x & s2 & -> & Hs & H2)|X].
    - split.
      + intros _. exists w, (AStr v), (34 :: x ++ [34]), s2, v. split; [cbn [app]; now rewrite <- app_assoc|].
        split; [exact Bw|]. split; [apply ta_text; now constructor|]. split; [now left|]. split; [now apply R_Q|]. split; [reflexivity|intros []].
      + intros (_ & En). destruct H2 as (p & l & ->). discriminate En.
    - split; [unfold rok; destruct (rerr r2); [discriminate|congruence]|]. intros (En & _). congruence. }
  destruct ((c =? 45) || isdigit c) eqn:C11.
  - assert (Hn : c = 45 \/ digit_char c).
    { apply orb_true_iff in C11 as [X|X]; [left; now apply N.eqb_eq|right; now apply isdigit_iff]. }
    assert (N47 : c <> 47) by (destruct Hn as [->|X]; [discriminate|unfold digit_char in X; lia]).
    destruct (read_number_inv _ _ _ _ _ _ _ _ (R_Q _ _ _ _ _ (H1 N47)) Hn E) as (ds & fr & ex & s2 & -> & Hd & Hf & He & H2 & K & Lg & Op & _).
    assert (Sl : sloppy_number (c :: ds ++ fr ++ ex)) by (exists c, ds, fr, ex; auto).
    assert (Es : c :: ds ++ fr ++ ex ++ s2 = (c :: ds ++ fr ++ ex) ++ s2) by (cbn [app]; now rewrite <- !app_assoc).
    assert (T : exists a, is_num a /\ tok_accept (dia o) a (c :: ds ++ fr ++ ex) /\ kind a t /\ pay a b (c :: ds ++ fr ++ ex)).
    { destruct K as [(-> & -> & ->)|(-> & N)].
      - rewrite !app_nil_r in *. destruct (list_eq_dec N.eq_dec (c :: ds) [45]) as [Eq|Ne].
        + injection Eq as -> ->. exists (AFloat [45]). split; [exact I|]. split; [apply ta_sloppy; [exact Sl|apply int_text_lone]|].
          split; [right; auto|reflexivity].
        + destruct (number_int c ds Hn Hd Ne) as (z & Hz). exists (AInt z). split; [exact I|].
          split; [apply ta_text; now constructor|]. split; [now left|exact Hz].
      - exists (AFloat (c :: ds ++ fr ++ ex)). split; [exact I|]. split; [apply ta_sloppy; [exact Sl|]|].
        { intros z. now apply not_int_frac. }
        split; [now left|reflexivity]. }
    destruct T as (a & Na & Ta & Ka & Pa). rewrite Es. split.
    + intro Hok. destruct H2 as [H2|(En & _)]; [|rewrite (ended_not_ok _ En) in Hok; discriminate].
      exists w, a, (c :: ds ++ fr ++ ex), s2, (c :: ds ++ fr ++ ex). split; [reflexivity|]. auto 9.
    + intro En. right.
      destruct H2 as [H2|(_ & -> & Hbf)]; [apply Q_ok in H2; rewrite (ended_not_ok _ En) in H2; discriminate|].
      exists w, a, (c :: ds ++ fr ++ ex). rewrite app_nil_r. split; [reflexivity|]. repeat split; auto. exists c, ds, fr, ex. repeat split; auto.
  - injection E as <- <-. split; [rewrite err_not_ok; discriminate|]. intros (X & _). exfalso. eapply err_some; exact X.
Qed.

(* ---- readers with a look-ahead ---- *)
Definition errd (r : reader) : Prop := rerr r <> None.
Lemma tri r : rok r = true \/ ended r \/ errd r.
Proof. destruct (rok r) eqn:E; [now left|right]. now apply not_ok_cases. Qed.
Lemma errd_not_ok r : errd r -> rok r = false.
Proof. unfold errd, rok. destruct (rerr r); [auto|congruence]. Qed.
Lemma errd_steps r r' : rsteps r r' -> errd r -> errd r'.
Proof.
  intros H. apply rs_evolves in H as (_ & H & _). unfold errd. destruct (rerr r) as [e|] eqn:E; [|congruence].
  intros _. rewrite (H _ eq_refl). discriminate.
Qed.
Lemma ended_not_errd r : ended r -> ~ errd r. Proof. intros (A & _) H. now apply H. Qed.
Lemma ok_not_errd r : rok r = true -> ~ errd r. Proof. intros A H. rewrite (errd_not_ok _ H) in A. discriminate. Qed.

(* unread text s (the look-ahead included), buffer b *)
Definition G (o : ropts) (s b : str) (r : reader) : Prop :=
  Q o s b TNone r \/
  exists w a x s' t b0, s = w ++ x ++ s' /\ blank (dia o) w /\ tok_accept (dia o) a x /\ kind a t /\ Q o s' b t r /\ pay a b0 b /\ (is_num a -> longest x s').
Lemma G_ok o s b r : G o s b r -> rok r = true.
Proof. intros [H|(w & a & x & s' & t & b0 & _ & _ & _ & _ & H & _ & _)]; eapply Q_ok; eauto. Qed.
Lemma Q_G o s b r : Q o s b TNone r -> G o s b r. Proof. now left. Qed.

(* what is left as look-ahead when the text ends *)
Definition stuck (r : reader) : Prop := rtok r = TNone \/ rtok r = TEOS \/ rtok r = TInt \/ rtok r = TFloat.

Lemma accepts_app d s ts s1 ts2 s2 : accepts d s ts s1 -> accepts d s1 ts2 s2 -> accepts d s (ts ++ ts2) s2.
Proof. induction 1; intro K; [exact K|]. cbn [app]. econstructor; eauto. Qed.
Lemma accepts_one d w a x s : blank d w -> tok_accept d a x -> (is_num a -> longest x s) -> accepts d (w ++ x ++ s) [a] s.
Proof. intros. econstructor; eauto. constructor. Qed.
Lemma accepts_cons d s a s1 ts s2 : accepts d s [a] s1 -> accepts d s1 ts s2 -> accepts d s (a :: ts) s2.
Proof. apply (accepts_app d s [a] s1 ts s2). Qed.
Lemma accepts_bytes d s ts s' : accepts d s ts s' -> byte_string s -> byte_string s'.
Proof. induction 1; auto. intro B. apply Forall_app in B as (_ & B). apply Forall_app in B as (_ & B). auto. Qed.

Lemma kind_none a : ~ kind a TNone. Proof. intros [X|(_ & X)]; [destruct a; discriminate|discriminate]. Qed.
Lemma kind_eos a : ~ kind a TEOS. Proof. intros [X|(_ & X)]; [destruct a; discriminate|discriminate]. Qed.
Lemma same_none t : same_type t TNone = true <-> t = TNone.
Proof. destruct t; cbn; split; congruence. Qed.

Lemma look_next r t r' : next_tok r = Ok (t, r') -> rtok r = TNone \/ t = rtok r.
Proof.
  unfold next_tok. destruct (same_type (rtok r) TNone) eqn:E; [apply same_none in E; auto|]. intro X. right. congruence.
Qed.
Lemma look_peek r t r' : peek_tok r = Ok (t, r') -> (rtok r = TNone \/ t = rtok r) /\ rtok r' = t.
Proof.
  unfold peek_tok. destruct (same_type (rtok r) TNone) eqn:E; [apply same_none in E|].
  - intro X. apply bind_Ok in X as ([t1 r1] & _ & X). injection X as <- <-. auto.
  - intro X. injection X as <- <-. auto.
Qed.
Lemma next_inv_end o s b r t r' : G o s b r -> byte_string s -> next_tok r = Ok (t, r') -> ended r' ->
  (t = TEOS /\ blank_end (dia o) s) \/ (exists w a x, s = w ++ x /\ at_end o w a x t r').
Proof.
  intros [H|(w & a & x & s' & t0 & b0 & -> & Bw & Ha & Hk & H & Hp & Lg)] Hb E En; unfold next_tok in E; rewrite (Q_tok _ _ _ _ _ H) in E.
  - cbn in E. exact (proj2 (lex_inv _ _ _ _ _ _ H Hb E) En).
  - destruct (same_type t0 TNone) eqn:Es; [apply same_none in Es; subst; exfalso; eapply kind_none; eauto|].
    injection E as <- <-. apply Q_ok in H. assert (X : rok (set_tok TNone r) = true) by exact H. rewrite (ended_not_ok _ En) in X. discriminate.
Qed.
Lemma peek_inv_end o s b r t r' : G o s b r -> byte_string s -> peek_tok r = Ok (t, r') -> ended r' ->
  (t = TEOS /\ blank_end (dia o) s) \/ (exists w a x, s = w ++ x /\ at_end o w a x t r').
Proof.
  intros [H|(w & a & x & s' & t0 & b0 & -> & Bw & Ha & Hk & H & Hp & Lg)] Hb E En; unfold peek_tok in E; rewrite (Q_tok _ _ _ _ _ H) in E.
  - cbn [same_type] in E. apply bind_Ok in E as ([t1 r1] & E1 & E). injection E as <- <-.
    exact (proj2 (lex_inv _ _ _ _ _ _ H Hb E1) En).
  - destruct (same_type t0 TNone) eqn:Es; [apply same_none in Es; subst; exfalso; eapply kind_none; eauto|].
    injection E as <- <-. apply Q_ok in H. rewrite (ended_not_ok _ En) in H. discriminate.
Qed.

Lemma next_inv o s b r t r' : G o s b r -> byte_string s -> next_tok r = Ok (t, r') ->
  (rok r' = true -> exists a s' b', accepts (dia o) s [a] s' /\ kind a t /\ Q o s' b' TNone r' /\ pay a b b' /\ byte_string s') /\
  (ended r' -> (t = TEOS \/ t = TInt \/ t = TFloat) /\ no_more (dia o) s).
Proof.
  intros [H|(w & a & x & s' & t0 & b0 & -> & Bw & Ha & Hk & H & Hp & Lg)] Hb E; unfold next_tok in E; rewrite (Q_tok _ _ _ _ _ H) in E.
  - cbn in E. destruct (lex_inv _ _ _ _ _ _ H Hb E) as (A & B). split.
    + intro Hok. destruct (A Hok) as (w & a & x & s' & b' & -> & Bw & Ha & Hk & H' & Hp & Lg).
      exists a, s', b'. split; [now apply accepts_one|]. repeat split; auto.
      apply Forall_app in Hb as (_ & B1). apply Forall_app in B1 as (_ & B1). exact B1.
    + intro En. destruct (B En) as [(-> & X)|(w & a & x & -> & X)]; [split; [auto|now apply nm_blank]|].
      split; [right; eapply at_end_num; eauto|]. destruct X as (X1 & _ & _ & _ & _ & X2). now apply nm_number.
  - destruct (same_type t0 TNone) eqn:Es; [apply same_none in Es; subst; exfalso; eapply kind_none; eauto|].
    injection E as <- <-. pose proof (Q_settok _ _ _ _ TNone _ H) as H'. split.
    + intros _. exists a, s', b. split; [now apply accepts_one|]. repeat split; auto.
      * destruct a; cbn in *; auto.
      * apply Forall_app in Hb as (_ & B1). apply Forall_app in B1 as (_ & B1). exact B1.
    + intro En. apply Q_ok in H'. rewrite (ended_not_ok _ En) in H'. discriminate.
Qed.
Lemma peek_inv' o s b r t r' : G o s b r -> byte_string s -> peek_tok r = Ok (t, r') ->
  (rok r' = true -> rtok r' = t /\ (exists b', G o s b' r') /\ exists a s', accepts (dia o) s [a] s' /\ kind a t) /\
  (ended r' -> stuck r' /\ rtok r' = t /\ (t = TEOS \/ t = TInt \/ t = TFloat) /\ no_more (dia o) s).
Proof.
  intros [H|(w & a & x & s' & t0 & b0 & -> & Bw & Ha & Hk & H & Hp & Lg)] Hb E; unfold peek_tok in E; rewrite (Q_tok _ _ _ _ _ H) in E.
  - cbn [same_type] in E. apply bind_Ok in E as ([t1 r1] & E1 & E). injection E as <- <-.
    destruct (lex_inv _ _ _ _ _ _ H Hb E1) as (A & B). split.
    + intro Hok. split; [reflexivity|]. destruct (A Hok) as (w & a & x & s' & b' & -> & Bw & Ha & Hk & H' & Hp & Lg). split.
      * exists b'. right. exists w, a, x, s', t1, b. repeat split; auto. eapply Q_settok; eauto.
      * exists a, s'. split; auto. now apply accepts_one.
    + intro En. assert (En1 : ended r1) by exact En.
      destruct (B En1) as [(-> & X)|(w & a & x & -> & X)].
      * repeat split; auto; [now right; left|now apply nm_blank].
      * pose proof (at_end_num _ _ _ _ _ _ X) as Ht. destruct X as (X1 & _ & _ & _ & _ & X2).
        repeat split; auto; [right; right; exact Ht|now apply nm_number].
  - destruct (same_type t0 TNone) eqn:Es; [apply same_none in Es; subst; exfalso; eapply kind_none; eauto|].
    injection E as <- <-. split.
    + intros _. split; [eapply Q_tok; eauto|]. split.
      * exists b. right. exists w, a, x, s', t0, b0. repeat split; auto.
      * exists a, s'. split; auto. now apply accepts_one.
    + intro En. apply Q_ok in H. rewrite (ended_not_ok _ En) in H. discriminate.
Qed.

Lemma assert_same t x r : same_type t x = true -> assert_tok t x r = r.
Proof. unfold assert_tok. now intros ->. Qed.
Lemma assert_diff t x r : same_type t x = false -> errd (assert_tok t x r).
Proof. unfold assert_tok. intros ->. apply err_some. Qed.
Lemma kind_same a t x : kind a t -> same_type t (tok_of x) = true ->
  match x with AInt _ | AFloat _ | AStr _ | ABool _ => False | _ => True end -> a = x.
Proof. intros [->|(-> & ->)] H N; [destruct a, x; cbn in *; congruence || contradiction|destruct x; cbn in *; congruence || contradiction]. Qed.

(* ---- the loops ---- *)
Section Loops.
Context {St : Type} (o : ropts).

Inductive achain (E : nat -> St -> list atok -> St -> Prop) : nat -> St -> list (list atok) -> St -> Prop :=
| ach_one i s it s1 : E i s it s1 -> achain E i s [it] s1
| ach_cons i s it s1 its s2 : E i s it s1 -> its <> [] -> achain E (S i) s1 its s2 -> achain E i s (it :: its) s2.

Definition elem_ok (Inv : St -> Prop) (E : St -> list atok -> St -> Prop) (fn : St -> reader -> outcome (St * reader)) : Prop :=
  forall st r st' r', fn st r = Ok (st', r') -> rsteps r r' /\
  forall s b, Inv st -> G o s b r -> byte_string s ->
  (rok r' = true -> exists it s' b', accepts (dia o) s it s' /\ E st it st' /\ Inv st' /\ Q o s' b' TNone r') /\
  (ended r' -> stuck r').

Lemma next_stuck r t r' : ended r -> stuck r -> next_tok r = Ok (t, r') -> ended r' /\ (t = TEOS \/ t = TInt \/ t = TFloat).
Proof.
  intros En Hs E. unfold next_tok in E. destruct (same_type (rtok r) TNone) eqn:X.
  - rewrite (lex_not_ok _ (ended_not_ok _ En)) in E. injection E as <- <-. auto.
  - injection E as <- <-. split; [exact En|]. destruct Hs as [Y|Hs]; [|exact Hs]. rewrite Y in X. discriminate.
Qed.

Lemma array_loop_inv (Inv : St -> Prop) (E : nat -> St -> list atok -> St -> Prop) fn :
  (forall i, elem_ok Inv (E i) (fn i)) ->
  forall fuel i st r st' r' s b, array_loop fuel fn i st r = Ok (st', r') -> Inv st -> G o s b r -> byte_string s ->
  ~ ended r' /\
  (rok r' = true -> exists its s' b', accepts (dia o) s (sep_by its ++ [AArrE]) s' /\ its <> [] /\ achain E i st its st' /\ Inv st' /\ Q o s' b' TNone r').
Proof.
  intros Hfn. assert (Hst : forall i st r st' r', fn i st r = Ok (st', r') -> rsteps r r') by (intros i st r st' r' X; apply (Hfn i st r st' r' X)).
  induction fuel as [|f IH]; intros i st r st' r' s b X Hi H Hb; [discriminate|]. cbn [array_loop] in X.
  rewrite (G_ok _ _ _ _ H) in X. apply bind_Ok in X as ([s1 r1] & X1 & X). apply bind_Ok in X as ([t r2] & X2 & X).
  assert (bad : errd r1 \/ errd r2 \/ (same_type t TArrE = false /\ errd (assert_tok t TSep r2)) -> errd r').
  { intro Y. assert (Y' : errd r2 \/ (same_type t TArrE = false /\ errd (assert_tok t TSep r2))).
    { destruct Y as [Y|Y]; [left; eapply errd_steps; [eapply rs_next; eauto|exact Y]|exact Y]. }
    destruct (same_type t TArrE) eqn:Ht.
    - destruct Y' as [Y'|(? & _)]; [|discriminate]. injection X as <- <-. exact Y'.
    - eapply errd_steps; [eapply rs_array_loop; [exact Hst|exact X]|].
      destruct Y' as [Y'|(_ & Y')]; [|exact Y']. eapply errd_steps; [apply rs_assert|exact Y']. }
  assert (done : errd r' -> ~ ended r' /\ (rok r' = true -> exists its s' b', accepts (dia o) s (sep_by its ++ [AArrE]) s' /\ its <> [] /\ achain E i st its st' /\ Inv st' /\ Q o s' b' TNone r')).
  { intro Y. split; [intro Z; now apply ended_not_errd in Z|intro Z; now apply ok_not_errd in Z]. }
  destruct (Hfn i st r s1 r1 X1) as (_ & F). destruct (F s b Hi H Hb) as (A & B).
  destruct (tri r1) as [O1|[O1|O1]]; [| |apply done, bad; auto].
  2:{ destruct (next_stuck _ _ _ O1 (B O1) X2) as (_ & Ht). apply done, bad. right. right.
      destruct Ht as [->|[->| ->]]; split; try reflexivity; now apply assert_diff. }
  destruct (A O1) as (it & s2 & b2 & Ac & He & Hi2 & H2).
  assert (Hb2 : byte_string s2) by (eapply accepts_bytes; eauto).
  destruct (next_inv _ _ _ _ _ _ (Q_G _ _ _ _ H2) Hb2 X2) as (A2 & B2).
  destruct (tri r2) as [O2|[O2|O2]]; [| |apply done, bad; auto].
  2:{ destruct (B2 O2) as (Ht & _). apply done, bad. right. right. destruct Ht as [->|[->| ->]]; split; try reflexivity; now apply assert_diff. }
  destruct (A2 O2) as (a & s3 & b3 & Ac3 & Hk & H3 & _ & Hb3).
  destruct (same_type t TArrE) eqn:Ht.
  - injection X as <- <-. pose proof (kind_same a t AArrE Hk Ht I) as ->. split.
    + intro Z. rewrite (ended_not_ok _ Z) in O2. discriminate.
    + intros _. exists [it], s3, b3. cbn [sep_by]. repeat split; auto; [eapply accepts_app; eauto|discriminate|now apply ach_one].
  - destruct (same_type t TSep) eqn:Hts.
    + rewrite (assert_same _ _ _ Hts) in X. pose proof (kind_same a t ASep Hk Hts I) as ->.
      destruct (IH _ _ _ _ _ _ _ X Hi2 (Q_G _ _ _ _ H3) Hb3) as (NE & K). split; [exact NE|].
      intro Z. destruct (K Z) as (its & s4 & b4 & Ac4 & Nn & Ch & Hi4 & H4). exists (it :: its), s4, b4.
      split.
      { destruct its as [|it2 its]; [congruence|]. change (sep_by (it :: it2 :: its)) with (it ++ ASep :: sep_by (it2 :: its)).
        rewrite <- app_assoc. eapply accepts_app; [exact Ac|]. cbn [app]. eapply accepts_cons; eauto. }
      split; [discriminate|]. split; [eapply ach_cons; eauto|]. auto.
    + apply done, bad. right. right. split; [reflexivity|now apply assert_diff].
Qed.


Lemma parse_array_inv (Inv : St -> Prop) (E : nat -> St -> list atok -> St -> Prop) fn :
  (forall i, elem_ok Inv (E i) (fn i)) ->
  forall fuel st r st' r' s b, parse_array fuel fn st r = Ok (st', r') -> Inv st -> G o s b r -> byte_string s ->
  (ended r' -> stuck r' /\ exists s1, accepts (dia o) s [AArrS] s1 /\ no_more (dia o) s1 /\ st' = st) /\
  (rok r' = true -> exists s' b', Q o s' b' TNone r' /\ Inv st' /\
     ((accepts (dia o) s [ANull] s' /\ st' = st /\ (rtok r = TNone \/ rtok r = TNull)) \/ (accepts (dia o) s (arr_toks []) s' /\ st' = st /\ (rtok r = TNone \/ rtok r = TArrS)) \/
      exists its, accepts (dia o) s (arr_toks its) s' /\ its <> [] /\ achain E 0 st its st' /\ (rtok r = TNone \/ rtok r = TArrS))).
Proof.
  intros Hfn fuel st r st' r' s b X Hi H Hb.
  assert (Hst : forall i st r st' r', fn i st r = Ok (st', r') -> rsteps r r') by (intros i ? ? ? ? Y; apply (Hfn i _ _ _ _ Y)).
  unfold parse_array in X. apply bind_Ok in X as ([t r1] & X1 & X).
  destruct (next_inv _ _ _ _ _ _ H Hb X1) as (A & B).
  assert (vac : errd r' -> (ended r' -> stuck r' /\ exists s1, accepts (dia o) s [AArrS] s1 /\ no_more (dia o) s1 /\ st' = st) /\
     (rok r' = true -> exists s' b', Q o s' b' TNone r' /\ Inv st' /\
     ((accepts (dia o) s [ANull] s' /\ st' = st /\ (rtok r = TNone \/ rtok r = TNull)) \/ (accepts (dia o) s (arr_toks []) s' /\ st' = st /\ (rtok r = TNone \/ rtok r = TArrS)) \/
      exists its, accepts (dia o) s (arr_toks its) s' /\ its <> [] /\ achain E 0 st its st' /\ (rtok r = TNone \/ rtok r = TArrS)))).
  { intro Y. split; intro Z; exfalso; [now apply ended_not_errd in Z|now apply ok_not_errd in Z]. }
  destruct (same_type t TNull) eqn:Htn.
  - injection X as <- <-. destruct (tri r1) as [O1|[O1|O1]]; [| |now apply vac].
    + destruct (A O1) as (a & s1 & b1 & Ac & Hk & H1 & _ & _). pose proof (kind_same a t ANull Hk Htn I) as ->.
      split; [intro Z; rewrite (ended_not_ok _ Z) in O1; discriminate|]. intros _. exists s1, b1. split; [exact H1|]. split; [exact Hi|].
      left. split; [exact Ac|]. split; [reflexivity|].
      destruct (look_next _ _ _ X1) as [Y|Y]; [now left|right]. rewrite <- Y. destruct t; cbn in Htn; try discriminate Htn. reflexivity.
    + destruct (B O1) as ([->|[->| ->]] & _); discriminate Htn.
  - apply bind_Ok in X as ([t2 r2] & X2 & X).
    assert (S2 : errd r2 -> errd r').
    { intro Y. destruct (same_type t2 TArrE).
      - apply bind_Ok in X as ([t3 r3] & X3 & X). injection X as <- <-. eapply errd_steps; [eapply rs_expect; eauto|exact Y].
      - eapply errd_steps; [eapply rs_array_loop; [exact Hst|exact X]|exact Y]. }
    assert (S1 : errd (assert_tok t TArrS r1) -> errd r').
    { intro Y. apply S2. eapply errd_steps; [eapply rs_peek; eauto|exact Y]. }
    destruct (same_type t TArrS) eqn:Hts; [|apply vac, S1; now apply assert_diff].
    rewrite (assert_same _ _ _ Hts) in *.
    assert (Lk : rtok r = TNone \/ rtok r = TArrS)
      by (destruct (look_next _ _ _ X1) as [Y|Y]; [now left|right]; rewrite <- Y; destruct t; cbn in Hts; try discriminate Hts; reflexivity).
    destruct (tri r1) as [O1|[O1|O1]]; [|destruct (B O1) as ([->|[->| ->]] & _); discriminate Hts|now apply vac, S1].
    destruct (A O1) as (a & s1 & b1 & Ac & Hk & H1 & _ & Hb1). pose proof (kind_same a t AArrS Hk Hts I) as ->.
    destruct (peek_inv' _ _ _ _ _ _ (Q_G _ _ _ _ H1) Hb1 X2) as (A2 & B2).
    destruct (tri r2) as [O2|[O2|O2]]; [| |now apply vac, S2].
    + destruct (A2 O2) as (Rt & (b2 & H2) & a2 & s2 & Ac2 & Hk2).
      destruct (same_type t2 TArrE) eqn:Ht2.
      * apply bind_Ok in X as ([t3 r3] & X3 & X). injection X as <- <-. unfold expect_tok in X3.
        apply bind_Ok in X3 as ([t4 r4] & X4 & X3).
        assert (Y : t4 = t2 /\ r4 = set_tok TNone r2).
        { unfold next_tok in X4. rewrite Rt in X4. destruct (same_type t2 TNone) eqn:Z; [apply same_none in Z; subst; discriminate|].
          injection X4 as <- <-. auto. }
        destruct Y as (-> & ->). rewrite Ht2 in X3. injection X3 as <- <-.
        destruct (next_inv _ _ _ _ _ _ H2 Hb1 X4) as (A4 & _). destruct (A4 O2) as (a4 & s4 & b4 & Ac4 & Hk4 & H4 & _ & _).
        pose proof (kind_same a4 t2 AArrE Hk4 Ht2 I) as ->.
        split; [intro Z; apply Q_ok in H4; rewrite (ended_not_ok _ Z) in H4; discriminate|].
        intros _. exists s4, b4. split; [exact H4|]. split; [exact Hi|]. right. left. split; [|split; [reflexivity|exact Lk]].
        unfold arr_toks. cbn [sep_by app]. eapply accepts_cons; eauto.
      * destruct (array_loop_inv Inv E fn Hfn _ _ _ _ _ _ _ _ X Hi H2 Hb1) as (NE & K). split; [intro Z; contradiction|].
        intro Z. destruct (K Z) as (its & s4 & b4 & Ac4 & Nn & Ch & Hi4 & H4). exists s4, b4. split; [exact H4|]. split; [exact Hi4|].
        right. right. exists its. split; [|auto]. unfold arr_toks. eapply accepts_cons; eauto.
    + destruct (B2 O2) as (Sk & _ & Ht & Nm).
      assert (Y : same_type t2 TArrE = false) by (destruct Ht as [->|[->| ->]]; reflexivity). rewrite Y in X.
      assert (Z : st' = st /\ r' = r2).
      { destruct fuel; cbn [array_loop] in X; [discriminate|]. rewrite (ended_not_ok _ O2) in X. split; congruence. }
      destruct Z as (-> & ->). split.
      * intros _. split; [exact Sk|]. exists s1. auto.
      * intro Z. rewrite (ended_not_ok _ O2) in Z. discriminate.
Qed.

Inductive ochain (E : str -> St -> list atok -> St -> Prop) : St -> list (str * list atok) -> St -> Prop :=
| och_one k s it s1 : E k s it s1 -> ochain E s [(k, it)] s1
| och_cons k s it s1 its s2 : E k s it s1 -> its <> [] -> ochain E s1 its s2 -> ochain E s ((k, it) :: its) s2.

Lemma expect_inv x r t r' : expect_tok x r = Ok (t, r') ->
  (next_tok r = Ok (t, r') /\ same_type t x = true) \/ (t = TEOS /\ errd r').
Proof.
  unfold expect_tok. intro X. apply bind_Ok in X as ([t1 r1] & X1 & X). destruct (same_type t1 x) eqn:Y.
  - injection X as <- <-. auto.
  - injection X as <- <-. right. split; [reflexivity|now apply assert_diff].
Qed.

Lemma object_loop_inv (Inv : St -> Prop) (E : str -> St -> list atok -> St -> Prop) fn :
  (forall k, elem_ok Inv (E k) (fn k)) ->
  forall fuel st r st' r' s b, object_loop fuel fn st r = Ok (st', r') -> Inv st -> G o s b r -> byte_string s ->
  ~ ended r' /\
  (rok r' = true -> exists its s' b', accepts (dia o) s (sep_by (map member_toks its) ++ [AObjE]) s' /\ its <> [] /\ ochain E st its st' /\ Inv st' /\ Q o s' b' TNone r').
Proof.
  intros Hfn. assert (Hst : forall i st r st' r', fn i st r = Ok (st', r') -> rsteps r r') by (intros i st r st' r' X; apply (Hfn i st r st' r' X)).
  induction fuel as [|f IH]; intros st r st' r' s b X Hi H Hb; [discriminate|]. cbn [object_loop] in X.
  rewrite (G_ok _ _ _ _ H) in X. apply bind_Ok in X as ([t r1] & X1 & X). apply bind_Ok in X as (v & Xv & X).
  apply bind_Ok in X as ([tk r2] & X2 & X). apply bind_Ok in X as ([s1 r3] & X3 & X). apply bind_Ok in X as ([t2 r4] & X4 & X).
  assert (bad4 : errd r4 \/ (same_type t2 TObjE = false /\ errd (assert_tok t2 TSep r4)) -> errd r').
  { intro Y'. destruct (same_type t2 TObjE) eqn:Ht.
    - destruct Y' as [Y'|(? & _)]; [|discriminate]. injection X as <- <-. exact Y'.
    - eapply errd_steps; [eapply rs_object_loop; [exact Hst|exact X]|].
      destruct Y' as [Y'|(_ & Y')]; [|exact Y']. eapply errd_steps; [apply rs_assert|exact Y']. }
  assert (bad3 : errd r3 -> errd r') by (intro Y; apply bad4; left; eapply errd_steps; [eapply rs_next; eauto|exact Y]).
  assert (bad2 : errd r2 -> errd r') by (intro Y; apply bad3; eapply errd_steps; [eapply Hst; eauto|exact Y]).
  assert (bad1 : errd r1 -> errd r') by (intro Y; apply bad2; eapply errd_steps; [eapply rs_expect; eauto|exact Y]).
  assert (done : errd r' -> ~ ended r' /\ (rok r' = true -> exists its s' b', accepts (dia o) s (sep_by (map member_toks its) ++ [AObjE]) s' /\ its <> [] /\ ochain E st its st' /\ Inv st' /\ Q o s' b' TNone r')).
  { intro Y. split; [intro Z; now apply ended_not_errd in Z|intro Z; now apply ok_not_errd in Z]. }
  (* the key *)
  destruct (expect_inv _ _ _ _ X1) as [(N1 & T1)|(-> & _)]; [|discriminate Xv].
  destruct (next_inv _ _ _ _ _ _ H Hb N1) as (A1 & B1).
  destruct (tri r1) as [O1|[O1|O1]]; [|destruct (B1 O1) as ([->|[->| ->]] & _); discriminate T1|now apply done, bad1].
  destruct (A1 O1) as (a1 & sa & ba & Ac1 & Hk1 & H1 & Hp1 & Hb1).
  assert (K1 : exists k, a1 = AStr k /\ ba = k).
  { destruct Hk1 as [->|(-> & ->)]; [|discriminate T1]. destruct a1; try discriminate T1. cbn in Hp1. eauto. }
  destruct K1 as (k & -> & ->).
  (* the colon *)
  destruct (expect_inv _ _ _ _ X2) as [(N2 & T2)|(-> & Y)]; [|now apply done, bad2].
  destruct (next_inv _ _ _ _ _ _ (Q_G _ _ _ _ H1) Hb1 N2) as (A2 & B2).
  destruct (tri r2) as [O2|[O2|O2]]; [|destruct (B2 O2) as ([->|[->| ->]] & _); discriminate T2|now apply done, bad2].
  destruct (A2 O2) as (a2 & sb & bb & Ac2 & Hk2 & H2 & Hp2 & Hb2). pose proof (kind_same a2 tk AKey Hk2 T2 I) as ->.
  cbn in Hp2. subst bb. rewrite (Q_buf _ _ _ _ _ H2) in X3.
  (* the value *)
  destruct (Hfn k st r2 s1 r3 X3) as (_ & F). destruct (F sb k Hi (Q_G _ _ _ _ H2) Hb2) as (A3 & B3).
  destruct (tri r3) as [O3|[O3|O3]]; [| |now apply done, bad3].
  2:{ destruct (next_stuck _ _ _ O3 (B3 O3) X4) as (_ & Ht). apply done, bad4. right.
      destruct Ht as [->|[->| ->]]; split; try reflexivity; now apply assert_diff. }
  destruct (A3 O3) as (it & sc & bc & Ac3 & He & Hi3 & H3).
  assert (Hb3 : byte_string sc) by (eapply accepts_bytes; eauto).
  destruct (next_inv _ _ _ _ _ _ (Q_G _ _ _ _ H3) Hb3 X4) as (A4 & B4).
  destruct (tri r4) as [O4|[O4|O4]]; [| |now apply done, bad4; left].
  2:{ destruct (B4 O4) as (Ht & _). apply done, bad4. right. destruct Ht as [->|[->| ->]]; split; try reflexivity; now apply assert_diff. }
  destruct (A4 O4) as (a & sd & bd & Ac4 & Hk & H4 & _ & Hb4).
  assert (AcM : accepts (dia o) s (member_toks (k, it)) sc).
  { unfold member_toks. cbn [fst snd]. eapply accepts_cons; [exact Ac1|]. eapply accepts_cons; [exact Ac2|exact Ac3]. }
  destruct (same_type t2 TObjE) eqn:Ht.
  - injection X as <- <-. pose proof (kind_same a t2 AObjE Hk Ht I) as ->. split.
    + intro Z. rewrite (ended_not_ok _ Z) in O4. discriminate.
    + intros _. exists [(k, it)], sd, bd. cbn [map sep_by]. repeat split; auto; [eapply accepts_app; eauto|discriminate|now apply och_one].
  - destruct (same_type t2 TSep) eqn:Hts.
    + rewrite (assert_same _ _ _ Hts) in X. pose proof (kind_same a t2 ASep Hk Hts I) as ->.
      destruct (IH _ _ _ _ _ _ X Hi3 (Q_G _ _ _ _ H4) Hb4) as (NE & K). split; [exact NE|].
      intro Z. destruct (K Z) as (its & s5 & b5 & Ac5 & Nn & Ch & Hi5 & H5). exists ((k, it) :: its), s5, b5.
      split.
      { destruct its as [|it2 its]; [congruence|].
        change (sep_by (map member_toks ((k, it) :: it2 :: its))) with (member_toks (k, it) ++ ASep :: sep_by (map member_toks (it2 :: its))).
        rewrite <- app_assoc. eapply accepts_app; [exact AcM|]. cbn [app]. eapply accepts_cons; eauto. }
      split; [discriminate|]. split; [eapply och_cons; eauto|]. auto.
    + apply done, bad4. right. split; [reflexivity|now apply assert_diff].
Qed.

Lemma parse_object_inv (Inv : St -> Prop) (E : str -> St -> list atok -> St -> Prop) fn :
  (forall k, elem_ok Inv (E k) (fn k)) ->
  forall fuel st r st' r' s b, parse_object fuel fn st r = Ok (st', r') -> Inv st -> G o s b r -> byte_string s ->
  (ended r' -> stuck r' /\ exists s1, accepts (dia o) s [AObjS] s1 /\ no_more (dia o) s1 /\ st' = st) /\
  (rok r' = true -> exists s' b', Q o s' b' TNone r' /\ Inv st' /\
     ((accepts (dia o) s [ANull] s' /\ st' = st /\ (rtok r = TNone \/ rtok r = TNull)) \/ (accepts (dia o) s (obj_toks []) s' /\ st' = st /\ (rtok r = TNone \/ rtok r = TObjS)) \/
      exists its, accepts (dia o) s (obj_toks its) s' /\ its <> [] /\ ochain E st its st' /\ (rtok r = TNone \/ rtok r = TObjS))).
Proof.
  intros Hfn fuel st r st' r' s b X Hi H Hb.
  assert (Hst : forall i st r st' r', fn i st r = Ok (st', r') -> rsteps r r') by (intros i ? ? ? ? Y; apply (Hfn i _ _ _ _ Y)).
  unfold parse_object in X. apply bind_Ok in X as ([t r1] & X1 & X).
  destruct (next_inv _ _ _ _ _ _ H Hb X1) as (A & B).
  assert (vac : errd r' -> (ended r' -> stuck r' /\ exists s1, accepts (dia o) s [AObjS] s1 /\ no_more (dia o) s1 /\ st' = st) /\
     (rok r' = true -> exists s' b', Q o s' b' TNone r' /\ Inv st' /\
     ((accepts (dia o) s [ANull] s' /\ st' = st /\ (rtok r = TNone \/ rtok r = TNull)) \/ (accepts (dia o) s (obj_toks []) s' /\ st' = st /\ (rtok r = TNone \/ rtok r = TObjS)) \/
      exists its, accepts (dia o) s (obj_toks its) s' /\ its <> [] /\ ochain E st its st' /\ (rtok r = TNone \/ rtok r = TObjS)))).
  { intro Y. split; intro Z; exfalso; [now apply ended_not_errd in Z|now apply ok_not_errd in Z]. }
  destruct (same_type t TNull) eqn:Htn.
  - injection X as <- <-. destruct (tri r1) as [O1|[O1|O1]]; [| |now apply vac].
    + destruct (A O1) as (a & s1 & b1 & Ac & Hk & H1 & _ & _). pose proof (kind_same a t ANull Hk Htn I) as ->.
      split; [intro Z; rewrite (ended_not_ok _ Z) in O1; discriminate|]. intros _. exists s1, b1. split; [exact H1|]. split; [exact Hi|].
      left. split; [exact Ac|]. split; [reflexivity|].
      destruct (look_next _ _ _ X1) as [Y|Y]; [now left|right]. rewrite <- Y. destruct t; cbn in Htn; try discriminate Htn. reflexivity.
    + destruct (B O1) as ([->|[->| ->]] & _); discriminate Htn.
  - apply bind_Ok in X as ([t2 r2] & X2 & X).
    assert (S2 : errd r2 -> errd r').
    { intro Y. destruct (same_type t2 TObjE).
      - apply bind_Ok in X as ([t3 r3] & X3 & X). injection X as <- <-. eapply errd_steps; [eapply rs_expect; eauto|exact Y].
      - eapply errd_steps; [eapply rs_object_loop; [exact Hst|exact X]|exact Y]. }
    assert (S1 : errd (assert_tok t TObjS r1) -> errd r').
    { intro Y. apply S2. eapply errd_steps; [eapply rs_peek; eauto|exact Y]. }
    destruct (same_type t TObjS) eqn:Hts; [|apply vac, S1; now apply assert_diff].
    rewrite (assert_same _ _ _ Hts) in *.
    assert (Lk : rtok r = TNone \/ rtok r = TObjS)
      by (destruct (look_next _ _ _ X1) as [Y|Y]; [now left|right]; rewrite <- Y; destruct t; cbn in Hts; try discriminate Hts; reflexivity).
    destruct (tri r1) as [O1|[O1|O1]]; [|destruct (B O1) as ([->|[->| ->]] & _); discriminate Hts|now apply vac, S1].
    destruct (A O1) as (a & s1 & b1 & Ac & Hk & H1 & _ & Hb1). pose proof (kind_same a t AObjS Hk Hts I) as ->.
    destruct (peek_inv' _ _ _ _ _ _ (Q_G _ _ _ _ H1) Hb1 X2) as (A2 & B2).
    destruct (tri r2) as [O2|[O2|O2]]; [| |now apply vac, S2].
    + destruct (A2 O2) as (Rt & (b2 & H2) & a2 & s2 & Ac2 & Hk2).
      destruct (same_type t2 TObjE) eqn:Ht2.
      * apply bind_Ok in X as ([t3 r3] & X3 & X). injection X as <- <-. unfold expect_tok in X3.
        apply bind_Ok in X3 as ([t4 r4] & X4 & X3).
        assert (Y : t4 = t2 /\ r4 = set_tok TNone r2).
        { unfold next_tok in X4. rewrite Rt in X4. destruct (same_type t2 TNone) eqn:Z; [apply same_none in Z; subst; discriminate|].
          injection X4 as <- <-. auto. }
        destruct Y as (-> & ->). rewrite Ht2 in X3. injection X3 as <- <-.
        destruct (next_inv _ _ _ _ _ _ H2 Hb1 X4) as (A4 & _). destruct (A4 O2) as (a4 & s4 & b4 & Ac4 & Hk4 & H4 & _ & _).
        pose proof (kind_same a4 t2 AObjE Hk4 Ht2 I) as ->.
        split; [intro Z; apply Q_ok in H4; rewrite (ended_not_ok _ Z) in H4; discriminate|].
        intros _. exists s4, b4. split; [exact H4|]. split; [exact Hi|]. right. left. split; [|split; [reflexivity|exact Lk]].
        unfold obj_toks. cbn [map sep_by app]. eapply accepts_cons; eauto.
      * destruct (object_loop_inv Inv E fn Hfn _ _ _ _ _ _ _ X Hi H2 Hb1) as (NE & K). split; [intro Z; contradiction|].
        intro Z. destruct (K Z) as (its & s4 & b4 & Ac4 & Nn & Ch & Hi4 & H4). exists s4, b4. split; [exact H4|]. split; [exact Hi4|].
        right. right. exists its. split; [|auto]. unfold obj_toks. eapply accepts_cons; eauto.
    + destruct (B2 O2) as (Sk & _ & Ht & Nm).
      assert (Y : same_type t2 TObjE = false) by (destruct Ht as [->|[->| ->]]; reflexivity). rewrite Y in X.
      assert (Z : st' = st /\ r' = r2).
      { destruct fuel; cbn [object_loop] in X; [discriminate|]. rewrite (ended_not_ok _ O2) in X. split; congruence. }
      destruct Z as (-> & ->). split.
      * intros _. split; [exact Sk|]. exists s1. auto.
      * intro Z. rewrite (ended_not_ok _ O2) in Z. discriminate.
Qed.
End Loops.

(* ---- skip ---- *)
Lemma achain_toks {St : Type} (E : nat -> St -> list atok -> St -> Prop) :
  (forall i s it s', E i s it s' -> exists j, it = toks j) ->
  forall i s its s', achain E i s its s' -> exists l, its = map toks l.
Proof.
  intros HE i s its s' H. induction H as [i s it s1 He|i s it s1 its s2 He _ _ (l & ->)].
  - destruct (HE _ _ _ _ He) as (j & ->). now exists [j].
  - destruct (HE _ _ _ _ He) as (j & ->). now exists (j :: l).
Qed.
Lemma ochain_toks {St : Type} (E : str -> St -> list atok -> St -> Prop) :
  (forall i s it s', E i s it s' -> exists j, it = toks j) ->
  forall s its s', ochain E s its s' -> exists l, its = map (fun kv => (fst kv, toks (snd kv))) l.
Proof.
  intros HE s its s' H. induction H as [k s it s1 He|k s it s1 its s2 He _ _ (l & ->)].
  - destruct (HE _ _ _ _ He) as (j & ->). now exists [(k, j)].
  - destruct (HE _ _ _ _ He) as (j & ->). now exists ((k, j) :: l).
Qed.

Lemma accepts_one_inv d s a s' : accepts d s [a] s' -> exists w x, s = w ++ x ++ s' /\ blank d w /\ tok_accept d a x.
Proof.
  intro H. inversion H as [|w t x s1 ts rest Bw Ha Hl Hr]; subst. inversion Hr; subst. eauto.
Qed.
Lemma unfinished_open d s a s1 : accepts d s [a] s1 -> a = AArrS \/ a = AObjS -> no_more d s1 -> unfinished d s.
Proof.
  intros H Ha N. apply accepts_one_inv in H as (w & x & -> & Bw & Hx).
  assert (X : exists c, x = [c] /\ (c = 91 \/ c = 123)).
  { destruct Ha as [->| ->]; inversion Hx as [t y Ht|y Hy1 Hy2]; subst; inversion Ht; subst; cbn; eauto. }
  destruct X as (c & -> & Hc). cbn [app]. now apply un_open.
Qed.

Lemma atom_kind a a2 t j : kind a t -> kind a2 t -> toks j = [a] -> exists j2, toks j2 = [a2].
Proof.
  intros Ha H2 Hj.
  assert (V : match a2 with AStr _ | AInt _ | AFloat _ | ABool _ | ANull => True | _ => False end).
  { assert (V : match a with AStr _ | AInt _ | AFloat _ | ABool _ | ANull => True | _ => False end).
    { destruct j as [| | | | |l|l]; cbn in Hj; try (injection Hj as <-; exact I).
      - destruct (sep_by _); discriminate Hj.
      - destruct (sep_by _); discriminate Hj. }
    destruct Ha as [->|(-> & ->)].
    - destruct H2 as [K|(-> & K)]; [destruct a, a2; cbn in K; try discriminate K; try exact I; contradiction|exact I].
    - destruct H2 as [K|(-> & K)]; [destruct a2; cbn in K; try discriminate K; exact I|exact I]. }
  destruct a2 as [| | | | | |q|q|q|q|]; try contradiction;
    [exists (JStr q)|exists (JInt q)|exists (JFloat q)|exists (JBool q)|exists JNull]; reflexivity.
Qed.

Definition jelem (_ : unit) (it : list atok) (_ : unit) : Prop := exists j, it = toks j.

Lemma skip_sound o : forall fuel r r', skip fuel r = Ok r' -> rsteps r r' /\
  forall s b, G o s b r -> byte_string s ->
  (rok r' = true -> exists j s' b', accepts (dia o) s (toks j) s' /\ Q o s' b' TNone r') /\
  (ended r' -> stuck r' /\ unfinished (dia o) s).
Proof.
  induction fuel as [|f IH]; intros r r' X; [discriminate|]. split; [eapply rs_skip; eauto|]. intros s b H Hb.
  cbn [skip] in X. apply bind_Ok in X as ([t r1] & X1 & X).
  destruct (peek_inv' _ _ _ _ _ _ H Hb X1) as (A & B).
  destruct (rok r1) eqn:O1; cbn [negb] in X.
  2:{ injection X as <-. split; [intro Z; congruence|]. intro En. destruct (B En) as (Sk & _ & _ & Nm). split; [exact Sk|now apply un_more]. }
  destruct (A eq_refl) as (Rt & (b1 & H1) & a & s1 & Ac & Hk).
  assert (El : elem_ok o (fun _ : unit => True) jelem (fun (_ : unit) r => do r' <- skip f r; Ok (tt, r'))).
  { intros st q st' q' Y. apply bind_Ok in Y as (q1 & Y1 & Y). injection Y as <- <-. destruct (IH _ _ Y1) as (St & F). split; [exact St|].
    intros s0 b0 _ H0 Hb0. destruct (F s0 b0 H0 Hb0) as (F1 & F2). split; [|intro En; now apply F2].
    intro Hok. destruct (F1 Hok) as (j & s' & b' & Acj & Hq). exists (toks j), s', b'. repeat split; auto. now exists j. }
  assert (simple : forall j, toks j = [a] -> same_type t TNone = false -> (do (_, r2) <- next_tok r1; Ok r2) = Ok r' ->
    (rok r' = true -> exists j s' b', accepts (dia o) s (toks j) s' /\ Q o s' b' TNone r') /\ (ended r' -> stuck r' /\ unfinished (dia o) s)).
  { intros j Hj Hn Y. apply bind_Ok in Y as ([t2 r2] & Y2 & Y). injection Y as <-.
    destruct (next_inv _ _ _ _ _ _ H1 Hb Y2) as (A2 & _).
    assert (Z : t2 = t /\ r2 = set_tok TNone r1).
    { unfold next_tok in Y2. rewrite Rt, Hn in Y2. injection Y2 as <- <-. auto. }
    destruct Z as (-> & ->). destruct (A2 O1) as (a2 & s2 & b2 & Ac2 & Hk2 & H2 & _ & _).
    split; [intros _|intro En; apply Q_ok in H2; rewrite (ended_not_ok _ En) in H2; discriminate].
    destruct (atom_kind _ _ _ _ Hk Hk2 Hj) as (j2 & Ej). exists j2, s2, b2. rewrite Ej. auto. }
  destruct t; try discriminate X.
  - (* object *)
    apply bind_Ok in X as ([u r2] & X2 & X). injection X as <-.
    destruct (parse_object_inv o (fun _ => True) (fun _ => jelem) _ (fun _ => El) _ _ _ _ _ _ _ X2 I H1 Hb) as (P1 & P2).
    split.
    + intro Z. destruct (P2 Z) as (s' & b' & Hq & _ & [(Ac2 & _)|[(Ac2 & _)|(its & Ac2 & _ & Ch & _)]]).
      * exists JNull, s', b'. auto.
      * exists (JObj []), s', b'. auto.
      * destruct (ochain_toks _ (fun i s it s' Y => Y) _ _ _ Ch) as (l & ->). exists (JObj l), s', b'. rewrite toks_obj. auto.
    + intro En. destruct (P1 En) as (Sk & s2 & Ac2 & Nm & _). split; [exact Sk|]. eapply unfinished_open; eauto.
  - apply bind_Ok in X as ([u r2] & X2 & X). injection X as <-.
    destruct (parse_array_inv o (fun _ => True) (fun _ => jelem) _ (fun _ => El) _ _ _ _ _ _ _ X2 I H1 Hb) as (P1 & P2).
    split.
    + intro Z. destruct (P2 Z) as (s' & b' & Hq & _ & [(Ac2 & _)|[(Ac2 & _)|(its & Ac2 & _ & Ch & _)]]).
      * exists JNull, s', b'. auto.
      * exists (JArr []), s', b'. auto.
      * destruct (achain_toks _ (fun i s it s' Y => Y) _ _ _ _ Ch) as (l & ->). exists (JArr l), s', b'. rewrite toks_arr. auto.
    + intro En. destruct (P1 En) as (Sk & s2 & Ac2 & Nm & _). split; [exact Sk|]. eapply unfinished_open; eauto.
  - destruct Hk as [K|(-> & K)]; [destruct a as [| | | | | |q|q|q|q|]; try discriminate K; apply (simple (JStr q)); auto|discriminate K].
  - destruct Hk as [K|(-> & K)]; [destruct a as [| | | | | |q|q|q|q|]; try discriminate K; apply (simple (JInt q)); auto|apply (simple (JFloat [45])); auto].
  - destruct Hk as [K|(-> & K)]; [destruct a as [| | | | | |q|q|q|q|]; try discriminate K; apply (simple (JFloat q)); auto|discriminate K].
  - destruct Hk as [K|(-> & K)]; [destruct a as [| | | | | |q|q|q|q|]; try discriminate K; apply (simple (JBool q)); auto|discriminate K].
  - destruct Hk as [K|(-> & K)]; [destruct a as [| | | | | |q|q|q|q|]; try discriminate K; apply (simple JNull); auto|discriminate K].
Qed.
