(* ProofJsonA4.v - inversion of the parsers that build values *)
From Coq Require String. Import String.StringSyntax.
From Verif Require Import Base Dec ModelJson ModelJsonW ModelJsonT SpecJson SpecJsonT SpecJsonA ProofJson1 ProofJson2 ProofJson3 ProofJson4 ProofJson5 ProofJson8 ProofJson9 ProofJsonT1 ProofJsonT4 ProofJsonA1 ProofJsonA2 ProofJsonA3.
Local Open Scope outcome_scope.

Lemma stol_inv z x z' : int_text z x -> stol x = Ok z' -> z' = z /\ int64 z.
Proof.
  intros H E. destruct ((- 2 ^ 63 <=? z) && (z <? 2 ^ 63))%Z eqn:T.
  - assert (I : int64 z). { apply andb_true_iff in T as (A & B). apply Z.leb_le in A. apply Z.ltb_lt in B. split; auto. }
    rewrite (stol_ok z x H I) in E. split; [congruence|exact I].
  - exfalso. destruct H as [s Hn Hd|s Hn Hd]; unfold stol in E.
    + rewrite dec_val_undec in T. change (undec_from 0 s) with (undec s) in T.
      destruct s as [|c s]; [contradiction|]. inversion Hd as [|? ? Hc _]; subst. unfold digit_char in Hc.
      destruct (N.eqb_spec c 45); [lia|]. cbv zeta iota in E. rewrite T in E. discriminate.
    + rewrite dec_val_undec in T. change (undec_from 0 s) with (undec s) in T.
      change (45 =? 45)%N with true in E. cbv zeta iota in E. destruct s as [|c s]; [contradiction|]. rewrite T in E. discriminate.
Qed.
Lemma stod_inv x y : stod x = Ok y -> y = x /\ float_read x.
Proof.
  unfold stod. destruct x as [|c s']; [discriminate|].
  destruct (N.eqb_spec c 45) as [->|N].
  - destruct s' as [|d m]; [discriminate|]. destruct (isdigit d) eqn:Ed.
    + intro X. split; [congruence|]. exists [45%N], d, m. split; [auto|]. split; [now apply isdigit_iff|now left].
    + destruct m as [|g m]; [discriminate|]. destruct ((d =? 46)%N && isdigit g) eqn:Eg; [|discriminate].
      intro X. split; [congruence|]. apply andb_true_iff in Eg as (Eg & Eh). apply N.eqb_eq in Eg. subst d.
      exists [45%N], g, m. split; [auto|]. split; [now apply isdigit_iff|now right].
  - destruct (isdigit c) eqn:Ed.
    + intro X. split; [congruence|]. exists [], c, s'. split; [auto|]. split; [now apply isdigit_iff|now left].
    + destruct s' as [|g m]; [discriminate|]. destruct ((c =? 46)%N && isdigit g) eqn:Eg; [|discriminate].
      intro X. split; [congruence|]. apply andb_true_iff in Eg as (Eg & Eh). apply N.eqb_eq in Eg. subst c.
      exists [], g, m. split; [auto|]. split; [now apply isdigit_iff|now right].
Qed.

(* the look-ahead, if any, is the first token of j *)
Definition look (r : reader) (ts : list atok) : Prop := rtok r = TNone \/ exists a ts', ts = a :: ts' /\ kind a (rtok r).
Lemma look_of r t a ts : rtok r = TNone \/ t = rtok r -> kind a t -> look r (a :: ts).
Proof. intros [H| ->] K; [now left|right; eauto]. Qed.

Section O.
Variable (o : ropts).

(* readers at the end of the text, a number being the look-ahead *)
Definition numstate (a : atok) (r : reader) : Prop :=
  ended r /\ is_num a /\ kind a (rtok r) /\ pay a [] (rbuf r).
Lemma at_end_pay w a x t r : at_end o w a x t r -> pay a [] (rbuf r).
Proof.
  intros (_ & N & T & _ & B & _). rewrite B. destruct a; try contradiction; cbn.
  - inversion T as [? ? T1|]; subst. now inversion T1.
  - inversion T as [? ? T1|]; subst; [now inversion T1|reflexivity].
Qed.
Lemma next_num a r t r' : numstate a r -> next_tok r = Ok (t, r') -> t = rtok r /\ r' = set_tok TNone r.
Proof.
  intros (E & N & K & _) X. unfold next_tok in X. destruct (same_type (rtok r) TNone) eqn:Y.
  - apply same_none in Y. rewrite Y in K. now apply kind_none in K.
  - injection X as <- <-. auto.
Qed.
Lemma peek_num a r t r' : numstate a r -> peek_tok r = Ok (t, r') -> t = rtok r /\ r' = r.
Proof.
  intros (E & N & K & _) X. unfold peek_tok in X. destruct (same_type (rtok r) TNone) eqn:Y.
  - apply same_none in Y. rewrite Y in K. now apply kind_none in K.
  - injection X as <- <-. auto.
Qed.
Lemma num_tok a t : is_num a -> kind a t -> t = TInt \/ t = TFloat.
Proof. intros N [->|(_ & ->)]; [destruct a; try contradiction; cbn; auto|auto]. Qed.

(* ---- scalars ---- *)
Lemma bool_inv s b r v r' : G o s b r -> byte_string s -> parse_bool r = Ok (v, r') ->
  ~ ended r' /\ (rok r' = true -> exists s' b', accepts (dia o) s [ABool v] s' /\ Q o s' b' TNone r' /\ look r [ABool v]).
Proof.
  intros H Hb E. unfold parse_bool in E. apply bind_Ok in E as ([t r1] & E1 & E). apply bind_Ok in E as (v1 & Ev & E). injection E as <- <-.
  destruct (expect_inv _ _ _ _ E1) as [(E2 & T)|(-> & _)]; [|discriminate Ev].
  destruct (next_inv _ _ _ _ _ _ H Hb E2) as (A & B). split.
  - intro En. destruct (B En) as ([->|[->| ->]] & _); discriminate.
  - intro Ok1. destruct (A Ok1) as (a & s' & b' & Ac & K & Hq & _ & _).
    destruct t; try discriminate T. cbn in Ev. injection Ev as <-.
    assert (a = ABool b0) as -> by (destruct K as [K|(_ & K)]; [destruct a; try discriminate K; cbn in K; congruence|discriminate K]).
    exists s', b'. repeat split; auto. eapply look_of; [eapply look_next; eauto|now left].
Qed.
Lemma str_inv s b r v r' : G o s b r -> byte_string s -> parse_string r = Ok (v, r') ->
  ~ ended r' /\ (rok r' = true -> exists s' b', accepts (dia o) s [AStr v] s' /\ Q o s' b' TNone r' /\ look r [AStr v]).
Proof.
  intros H Hb E. unfold parse_string in E. apply bind_Ok in E as ([t r1] & E1 & E). apply bind_Ok in E as (v1 & Ev & E). injection E as <- <-.
  destruct (expect_inv _ _ _ _ E1) as [(E2 & T)|(-> & _)]; [|discriminate Ev].
  destruct (next_inv _ _ _ _ _ _ H Hb E2) as (A & B). split.
  - intro En. destruct (B En) as ([->|[->| ->]] & _); discriminate.
  - intro Ok1. destruct (A Ok1) as (a & s' & b' & Ac & K & Hq & Hp & _).
    destruct t; try discriminate T. cbn in Ev. injection Ev as <-.
    assert (X : exists q, a = AStr q) by (destruct K as [K|(_ & K)]; [destruct a; try discriminate K; eauto|discriminate K]).
    destruct X as (q & ->). cbn in Hp. subst b'. rewrite (Q_buf _ _ _ _ _ Hq).
    exists s', q. repeat split; auto. eapply look_of; [eapply look_next; eauto|now left].
Qed.
Lemma null_inv s b r r' : G o s b r -> byte_string s -> parse_null r = Ok r' ->
  ~ ended r' /\ (rok r' = true -> exists s' b', accepts (dia o) s [ANull] s' /\ Q o s' b' TNone r' /\ look r [ANull]).
Proof.
  intros H Hb E. unfold parse_null in E. apply bind_Ok in E as ([t r1] & E1 & E). injection E as <-.
  destruct (expect_inv _ _ _ _ E1) as [(E2 & T)|(-> & X)]; [|split; [intro Z; now apply ended_not_errd in Z|intro Z; now apply ok_not_errd in Z]].
  destruct (next_inv _ _ _ _ _ _ H Hb E2) as (A & B). split.
  - intro En. destruct (B En) as ([->|[->| ->]] & _); discriminate.
  - intro Ok1. destruct (A Ok1) as (a & s' & b' & Ac & K & Hq & Hp & _). pose proof (kind_same a t ANull K T I) as ->.
    exists s', b'. repeat split; auto. eapply look_of; [eapply look_next; eauto|exact K].
Qed.

(* the number a token stands for, once read *)
Definition int_of (a : atok) (z : Z) : Prop := a = AInt z /\ int64 z.
Lemma as_int_inv a t r z b : kind a t -> rbuf r = b -> pay a [] b -> is_num a -> as_int t r = Ok z -> int_of a z.
Proof.
  intros K Hb Hp N E. destruct t; try discriminate E. cbn in E. rewrite Hb in E.
  destruct K as [K|(-> & _)].
  - destruct a; try discriminate K; try contradiction. cbn in Hp. destruct (stol_inv _ _ _ Hp E) as (-> & I). now split.
  - cbn in Hp. rewrite Hp in E. discriminate E.
Qed.
Lemma as_float_inv a t r x b : kind a t -> rbuf r = b -> pay a [] b -> is_num a -> as_float t r = Ok x -> a = AFloat x /\ float_read x.
Proof.
  intros K Hb Hp N E. destruct t; try discriminate E. cbn in E. rewrite Hb in E.
  destruct K as [K|(_ & K)]; [|discriminate K].
  destruct a; try discriminate K; try contradiction. cbn in Hp. rewrite Hp in E. apply stod_inv in E as (-> & F). auto.
Qed.
Lemma pay_num a b b' : is_num a -> pay a b b' -> pay a [] b'.
Proof. destruct a; try contradiction; auto. Qed.
Lemma kind_num a t : kind a t -> t = TInt \/ t = TFloat -> is_num a.
Proof. intros [->|(-> & _)] H; [destruct a; cbn in *; intuition (try discriminate)|exact I]. Qed.

Lemma int_inv s b r z r' : G o s b r -> byte_string s -> parse_int r = Ok (z, r') ->
  (ended r' -> exists w x, s = w ++ x /\ blank (dia o) w /\ tok_accept (dia o) (AInt z) x /\ int64 z /\ rtok r = TNone /\ rtok r' = TNone) /\
  (rok r' = true -> exists s' b', accepts (dia o) s [AInt z] s' /\ int64 z /\ Q o s' b' TNone r' /\ look r [AInt z]).
Proof.
  intros H Hb E. unfold parse_int in E. apply bind_Ok in E as ([t r1] & E1 & E). apply bind_Ok in E as (v1 & Ev & E). injection E as <- <-.
  destruct (expect_inv _ _ _ _ E1) as [(E2 & T)|(-> & _)]; [|discriminate Ev].
  destruct (next_inv _ _ _ _ _ _ H Hb E2) as (A & _). split.
  - intro En. destruct (next_inv_end _ _ _ _ _ _ H Hb E2 En) as [(-> & _)|(w & a & x & -> & X)]; [discriminate Ev|].
    pose proof (at_end_pay _ _ _ _ _ X) as Hp. pose proof X as (X1 & X2 & X3 & X4 & X5 & X6).
    destruct (as_int_inv _ _ _ _ _ X4 eq_refl Hp X2 Ev) as (-> & I). exists w, x. split; [reflexivity|]. split; [exact X1|]. split; [exact X3|]. split; [exact I|].
    assert (Y : rtok r = TNone).
    { unfold next_tok in E2. destruct (same_type (rtok r) TNone) eqn:Y; [now apply same_none|]. injection E2 as _ <-.
      apply G_ok in H. assert (Z : rok (set_tok TNone r) = true) by exact H. rewrite (ended_not_ok _ En) in Z. discriminate. }
    split; [exact Y|]. unfold next_tok in E2. rewrite Y in E2. cbn in E2.
    destruct (lex_token_fine r) as (_ & F). destruct (F _ _ E2) as (-> & _). exact Y.
  - intro Ok1. destruct (A Ok1) as (a & s' & b' & Ac & K & Hq & Hp & _).
    assert (N : is_num a) by (eapply kind_num; eauto; destruct t; try discriminate Ev; auto).
    destruct (as_int_inv a t r1 v1 b' K (Q_buf _ _ _ _ _ Hq) (pay_num _ _ _ N Hp) N Ev) as (-> & I).
    exists s', b'. repeat split; auto; try apply I. eapply look_of; [eapply look_next; eauto|exact K].
Qed.
Lemma float_inv s b r x r' : G o s b r -> byte_string s -> parse_float r = Ok (x, r') ->
  (ended r' -> exists w y, s = w ++ y /\ blank (dia o) w /\ tok_accept (dia o) (AFloat x) y /\ float_read x /\ rtok r = TNone /\ rtok r' = TNone) /\
  (rok r' = true -> exists s' b', accepts (dia o) s [AFloat x] s' /\ float_read x /\ Q o s' b' TNone r' /\ look r [AFloat x]).
Proof.
  intros H Hb E. unfold parse_float in E. apply bind_Ok in E as ([t r1] & E1 & E). apply bind_Ok in E as (v1 & Ev & E). injection E as <- <-.
  destruct t; try discriminate Ev. cbn [same_type] in *. unfold assert_tok in *. cbn [same_type] in *.
  destruct (next_inv _ _ _ _ _ _ H Hb E1) as (A & _). split.
  - intro En. destruct (next_inv_end _ _ _ _ _ _ H Hb E1 En) as [(X & _)|(w & a & y & -> & X)]; [discriminate X|].
    pose proof (at_end_pay _ _ _ _ _ X) as Hp. pose proof X as (X1 & X2 & X3 & X4 & X5 & X6).
    destruct (as_float_inv _ _ _ _ _ X4 eq_refl Hp X2 Ev) as (-> & I). exists w, y. split; [reflexivity|]. split; [exact X1|]. split; [exact X3|]. split; [exact I|].
    assert (Y : rtok r = TNone).
    { unfold next_tok in E1. destruct (same_type (rtok r) TNone) eqn:Y; [now apply same_none|]. injection E1 as _ <-.
      apply G_ok in H. assert (Z : rok (set_tok TNone r) = true) by exact H. rewrite (ended_not_ok _ En) in Z. discriminate. }
    split; [exact Y|]. unfold next_tok in E1. rewrite Y in E1. cbn in E1.
    destruct (lex_token_fine r) as (_ & F). destruct (F _ _ E1) as (-> & _). exact Y.
  - intro Ok1. destruct (A Ok1) as (a & s' & b' & Ac & K & Hq & Hp & _).
    assert (N : is_num a) by (eapply kind_num; eauto).
    destruct (as_float_inv a TFloat r1 v1 b' K (Q_buf _ _ _ _ _ Hq) (pay_num _ _ _ N Hp) N Ev) as (-> & I).
    exists s', b'. repeat split; auto. eapply look_of; [eapply look_next; eauto|exact K].
Qed.
(* numbers that are already the look-ahead *)
Lemma int_num a r z r' : numstate a r -> parse_int r = Ok (z, r') -> a = AInt z /\ int64 z /\ ended r' /\ rtok r' = TNone.
Proof.
  intros H E. unfold parse_int in E. apply bind_Ok in E as ([t r1] & E1 & E). apply bind_Ok in E as (v1 & Ev & E). injection E as <- <-.
  destruct (expect_inv _ _ _ _ E1) as [(E2 & T)|(-> & _)]; [|discriminate Ev].
  destruct (next_num _ _ _ _ H E2) as (-> & ->). destruct H as (En & N & K & P).
  destruct (as_int_inv _ _ (set_tok TNone r) _ _ K eq_refl P N Ev) as (-> & I). repeat split; auto; try apply I; apply En.
Qed.
Lemma float_num a r x r' : numstate a r -> parse_float r = Ok (x, r') -> a = AFloat x /\ float_read x /\ ended r' /\ rtok r' = TNone.
Proof.
  intros H E. unfold parse_float in E. apply bind_Ok in E as ([t r1] & E1 & E). apply bind_Ok in E as (v1 & Ev & E). injection E as <- <-.
  destruct (next_num _ _ _ _ H E1) as (-> & ->). destruct (rtok r) eqn:Et; try discriminate Ev. cbn [same_type] in *. unfold assert_tok in *. cbn [same_type] in *.
  destruct H as (En & N & K & P). rewrite Et in K.
  destruct (as_float_inv _ _ (set_tok TNone r) _ _ K eq_refl P N Ev) as (-> & I). repeat split; auto; apply En.
Qed.
End O.
