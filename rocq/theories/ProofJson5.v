(* ProofJson5.v - everything above the tokenizer only lexes, sets the look-ahead
   and records errors; what that implies for any parse. *)
From Coq Require String. Import String.StringSyntax.
From Verif Require Import Base Dec ModelJson ModelJsonW ModelJsonT SpecJson ProofJson1 ProofJson4.
Local Open Scope outcome_scope.
Local Open Scope N_scope.

(* an error of the library quotes the buffer of the reader it is set on *)
Definition quotes (c : cause) (b : str) : Prop :=
  match c with EUnexpected _ _ s | EUnknown _ s => s = b | EOther _ => True | _ => False end.
#[export] Hint Extern 1 (quotes _ _) => first [exact Logic.I | reflexivity] : core.
Inductive rsteps : reader -> reader -> Prop :=
| rs_refl r : rsteps r r
| rs_lex r t r1 r2 : lex_token r = Ok (t, r1) -> rsteps r1 r2 -> rsteps r r2
| rs_tok r t r2 : rsteps (set_tok t r) r2 -> rsteps r r2
| rs_err r c r2 : quotes c (rbuf r) -> rsteps (rerror_set c r) r2 -> rsteps r r2.

Lemma rs_trans a b c : rsteps a b -> rsteps b c -> rsteps a c.
Proof. induction 1; intros; auto; [eapply rs_lex|eapply rs_tok|eapply rs_err]; eauto. Qed.
Lemma rs_lex1 r t r1 : lex_token r = Ok (t, r1) -> rsteps r r1.
Proof. intro H. eapply rs_lex; [exact H|apply rs_refl]. Qed.
Lemma rs_tok1 r t : rsteps r (set_tok t r).
Proof. eapply rs_tok, rs_refl. Qed.
Lemma rs_err1 r c : quotes c (rbuf r) -> rsteps r (rerror_set c r).
Proof. intro H. exact (rs_err r c _ H (rs_refl _)). Qed.
#[export] Hint Resolve rs_refl rs_tok1 rs_err1 : core.

Lemma bind_ok {A B} (x : outcome A) (f : A -> outcome B) b : bind x f = Ok b -> exists a, x = Ok a /\ f a = Ok b.
Proof. destruct x; cbn; intros; try discriminate; eauto. Qed.

Ltac binv H :=
  let a := fresh "a" in let K := fresh "K" in
  apply bind_ok in H as (a & K & H).

Lemma rs_assert t x r : rsteps r (assert_tok t x r).
Proof. unfold assert_tok. destruct (same_type t x); auto. Qed.
Lemma rs_peek r t r1 : peek_tok r = Ok (t, r1) -> rsteps r r1.
Proof.
  unfold peek_tok. destruct (same_type _ _); [|intro H; injection H as <- <-; auto].
  intro H. binv H. destruct a as [t' r']. injection H as <- <-.
  eapply rs_trans; [eapply rs_lex1; exact K|auto].
Qed.
Lemma rs_next r t r1 : next_tok r = Ok (t, r1) -> rsteps r r1.
Proof.
  unfold next_tok. destruct (same_type _ _); [apply rs_lex1|intro H; injection H as <- <-; auto].
Qed.
Lemma rs_expect x r t r1 : expect_tok x r = Ok (t, r1) -> rsteps r r1.
Proof.
  unfold expect_tok. intro H. binv H. destruct a as [t' r']. apply rs_next in K.
  destruct (same_type _ _); injection H as <- <-; auto. eapply rs_trans; [exact K|apply rs_assert].
Qed.
Lemma rs_null r r1 : parse_null r = Ok r1 -> rsteps r r1.
Proof. unfold parse_null. intro H. binv H. destruct a. injection H as <-. eapply rs_expect; eauto. Qed.
Lemma rs_bool r b r1 : parse_bool r = Ok (b, r1) -> rsteps r r1.
Proof. unfold parse_bool. intro H. binv H. destruct a. binv H. injection H as <- <-. eapply rs_expect; eauto. Qed.
Lemma rs_int r b r1 : parse_int r = Ok (b, r1) -> rsteps r r1.
Proof. unfold parse_int. intro H. binv H. destruct a. binv H. injection H as <- <-. eapply rs_expect; eauto. Qed.
Lemma rs_string r b r1 : parse_string r = Ok (b, r1) -> rsteps r r1.
Proof. unfold parse_string. intro H. binv H. destruct a. binv H. injection H as <- <-. eapply rs_expect; eauto. Qed.
Lemma rs_float r b r1 : parse_float r = Ok (b, r1) -> rsteps r r1.
Proof.
  unfold parse_float. intro H. binv H. destruct a as [t r']. cbv zeta in H. binv H. injection H as <- <-.
  eapply rs_trans; [eapply rs_next; eauto|]. destruct (same_type t TInt); auto. apply rs_assert.
Qed.

Lemma rs_object_loop {S : Type} (fn : str -> S -> reader -> outcome (S * reader)) :
  (forall k s r s' r', fn k s r = Ok (s', r') -> rsteps r r') ->
  forall fuel s r s' r', object_loop fuel fn s r = Ok (s', r') -> rsteps r r'.
Proof.
  intro Hf. induction fuel as [|f IH]; intros s r s' r' H; [discriminate|]. cbn [object_loop] in H.
  destruct (rok r); [|injection H as <- <-; auto].
  binv H. destruct a as [t1 r1]. binv H. binv H. destruct a0 as [t2 r2]. binv H. destruct a0 as [s1 r3].
  binv H. destruct a0 as [t4 r4].
  apply rs_expect in K, K1. apply Hf in K2. apply rs_next in K3.
  assert (rsteps r r4) by (repeat (eapply rs_trans; [eassumption|]); auto).
  destruct (same_type _ _); [injection H as <- <-; auto|].
  eapply rs_trans; [eassumption|]. eapply rs_trans; [apply rs_assert|]. eapply IH; eauto.
Qed.
Lemma rs_array_loop {S : Type} (fn : nat -> S -> reader -> outcome (S * reader)) :
  (forall k s r s' r', fn k s r = Ok (s', r') -> rsteps r r') ->
  forall fuel i s r s' r', array_loop fuel fn i s r = Ok (s', r') -> rsteps r r'.
Proof.
  intro Hf. induction fuel as [|f IH]; intros i s r s' r' H; [discriminate|]. cbn [array_loop] in H.
  destruct (rok r); [|injection H as <- <-; auto].
  binv H. destruct a as [s1 r1]. binv H. destruct a as [t2 r2].
  apply Hf in K. apply rs_next in K0.
  assert (rsteps r r2) by (repeat (eapply rs_trans; [eassumption|]); auto).
  destruct (same_type _ _); [injection H as <- <-; auto|].
  eapply rs_trans; [eassumption|]. eapply rs_trans; [apply rs_assert|]. eapply IH; eauto.
Qed.
Lemma rs_object {S : Type} (fn : str -> S -> reader -> outcome (S * reader)) fuel s r s' r' :
  (forall k s r s' r', fn k s r = Ok (s', r') -> rsteps r r') ->
  parse_object fuel fn s r = Ok (s', r') -> rsteps r r'.
Proof.
  intros Hf H. unfold parse_object in H. binv H. destruct a as [t r1]. apply rs_next in K.
  destruct (same_type t TNull); [injection H as <- <-; auto|]. binv H. destruct a as [t2 r2]. apply rs_peek in K0.
  assert (rsteps r r2) by (eapply rs_trans; [eassumption|]; eapply rs_trans; [apply rs_assert|eassumption]).
  destruct (same_type _ _).
  - binv H. destruct a. injection H as <- <-. apply rs_expect in K1. eapply rs_trans; eauto.
  - eapply rs_trans; [eassumption|]. eapply rs_object_loop; eauto.
Qed.
Lemma rs_array {S : Type} (fn : nat -> S -> reader -> outcome (S * reader)) fuel s r s' r' :
  (forall k s r s' r', fn k s r = Ok (s', r') -> rsteps r r') ->
  parse_array fuel fn s r = Ok (s', r') -> rsteps r r'.
Proof.
  intros Hf H. unfold parse_array in H. binv H. destruct a as [t r1]. apply rs_next in K.
  destruct (same_type t TNull); [injection H as <- <-; auto|]. binv H. destruct a as [t2 r2]. apply rs_peek in K0.
  assert (rsteps r r2) by (eapply rs_trans; [eassumption|]; eapply rs_trans; [apply rs_assert|eassumption]).
  destruct (same_type _ _).
  - binv H. destruct a. injection H as <- <-. apply rs_expect in K1. eapply rs_trans; eauto.
  - eapply rs_trans; [eassumption|]. eapply rs_array_loop; eauto.
Qed.

Lemma rs_skip : forall fuel r r', skip fuel r = Ok r' -> rsteps r r'.
Proof.
  induction fuel as [|f IH]; intros r r' H; [discriminate|]. cbn [skip] in H.
  binv H. destruct a as [t r1]. apply rs_peek in K.
  destruct (negb (rok r1)); [injection H as <-; auto|].
  eapply rs_trans; [exact K|].
  assert (Hs : forall r s' r', (do r' <- skip f r; Ok (tt, r')) = Ok (s', r') -> rsteps r r').
  { intros q s' q' Hq. binv Hq. injection Hq as <- <-. eauto. }
  destruct t; try discriminate.
  all: binv H; destruct a; injection H as <-.
  1: eapply rs_object; [|exact K0]; cbv beta; eauto.
  1: eapply rs_array; [|exact K0]; cbv beta; eauto.
  all: eapply rs_next; eauto.
Qed.

Lemma rs_dyn : forall fuel v r v' r', parse_dyn fuel v r = Ok (v', r') -> rsteps r r'.
Proof.
  induction fuel as [|f IH]; intros v r v' r' H; [discriminate|]. cbn [parse_dyn] in H.
  binv H. destruct a as [t r1]. apply rs_peek in K. eapply rs_trans; [exact K|]. clear K.
  destruct t; try (injection H as <- <-; auto; fail).
  - binv H. destruct a as [m r2]. injection H as <- <-. eapply rs_object; [|exact K].
    cbv beta. intros k s q s' q' Hq. binv Hq. destruct a. injection Hq as <- <-. eauto.
  - binv H. destruct a as [m r2]. injection H as <- <-. eapply rs_array; [|exact K].
    cbv beta. intros k s q s' q' Hq. binv Hq. destruct a. injection Hq as <- <-. eauto.
  - binv H. destruct a. injection H as <- <-. eapply rs_string; eauto.
  - binv H. destruct a. injection H as <- <-. eapply rs_int; eauto.
  - binv H. destruct a. injection H as <- <-. eapply rs_float; eauto.
  - binv H. destruct a. injection H as <- <-. eapply rs_bool; eauto.
  - binv H. injection H as <- <-. eapply rs_null; eauto.
Qed.

Lemma rs_typed : forall fuel e t v r v' mv r', parse_t fuel e t v r = Ok (v', mv, r') -> rsteps r r'.
Proof.
  induction fuel as [|f IH]; intros e t v r v' mv r' H; [discriminate|]. cbn [parse_t] in H.
  destruct (nth_error e t) as [jt|]; [|discriminate]. destruct jt.
  - binv H. destruct a. injection H as <- <- <-. eapply rs_bool; eauto.
  - binv H. destruct a. destruct is_int64; [|discriminate]. injection H as <- <- <-. eapply rs_int; eauto.
  - binv H. destruct a. destruct is_double; [|discriminate]. injection H as <- <- <-. eapply rs_float; eauto.
  - binv H. destruct a. injection H as <- <- <-. eapply rs_string; eauto.
  - binv H. destruct a as [tk r1]. apply rs_peek in K. eapply rs_trans; [exact K|]. destruct (same_type tk TNull).
    + binv H. destruct a. injection H as <- <- <-. eapply rs_next; eauto.
    + cbv zeta in H. binv H. destruct a as [[p' ?] r2]. injection H as <- <- <-. eauto.
  - binv H. destruct a as [m r2]. injection H as <- <- <-. eapply rs_object; [|exact K].
    cbv beta. intros k s q s' q' Hq. binv Hq. destruct a as [[x b] q1]. apply IH in K0.
    destruct (rok q1); [destruct b; [discriminate|]|]; injection Hq as <- <-; auto.
  - binv H. destruct a as [m r2]. injection H as <- <- <-. eapply rs_array; [|exact K].
    cbv beta. intros k s q s' q' Hq. binv Hq. destruct a as [[x b] q1]. apply IH in K0.
    destruct (rok q1); [destruct b; [discriminate|]|]; injection Hq as <- <-; auto.
  - binv H. destruct a. injection H as <- <- <-. eapply rs_dyn; eauto.
  - binv H. destruct a as [m r2]. injection H as <- <- <-. eapply rs_object; [|exact K].
    cbv beta. intros k s q s' q' Hq. destruct (find_alias fs k).
    + binv Hq. destruct a as [[x b] q1]. apply IH in K0. injection Hq as <- <-. auto.
    + binv Hq. injection Hq as <- <-. eapply rs_skip; eauto.
Qed.

(* consequences *)
Lemma rs_evolves r r' : rsteps r r' -> evolves r r'.
Proof.
  induction 1 as [r|r t r1 r2 E _ IH|r t r2 _ IH|r c r2 _ _ IH].
  - apply ev_refl.
  - eapply ev_trans; [|exact IH]. destruct (lex_token_fine r) as [F _]. rewrite E in F. apply F.
  - eapply ev_trans; [apply ev_settok|exact IH].
  - eapply ev_trans; [apply ev_err|exact IH].
Qed.
Lemma lex_not_ok r : rok r = false -> lex_token r = Ok (TEOS, r).
Proof. intro H. unfold lex_token. rewrite H. reflexivity. Qed.
Lemma rs_frozen r r' : rsteps r r' -> rok r = false -> rin r' = rin r /\ rok r' = false.
Proof.
  induction 1 as [r|r t r1 r2 E _ IH|r t r2 _ IH|r c r2 _ _ IH]; intro H.
  - auto.
  - rewrite (lex_not_ok _ H) in E. injection E as <- <-. auto.
  - exact (IH H).
  - destruct IH as [E1 E2]; [apply err_not_ok|]. split; auto. rewrite E1.
    unfold rerror_set. destruct (rerr r); reflexivity.
Qed.
