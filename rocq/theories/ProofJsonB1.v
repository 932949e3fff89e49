(* ProofJsonB1.v - the generic parser on accepted tokens (SpecJsonA), with the payload of
   each token: the analogue of ProofJson3 for the texts the reader takes as documents. *)
From Coq Require String. Import String.StringSyntax.
From Verif Require Import Base Dec ModelJson SpecJson SpecJsonT SpecJsonA ProofJson1 ProofJson2 ProofJson3 ProofJson4 ProofJson5 ProofJson7 ProofJsonA1 ProofJsonA2 ProofJsonA3 ProofJsonA7 ProofJsonA9.
Local Open Scope outcome_scope.
Local Open Scope N_scope.

Lemma lex_accept_pay o w a x s b r : blank (dia o) w -> tok_accept (dia o) a x -> (is_num a -> longest x s /\ s <> []) ->
  Q o (w ++ x ++ s) b TNone r ->
  exists t r' b', lex_token r = Ok (t, r') /\ kind a t /\ Q o s b' TNone r' /\ payload a b'.
Proof.
  intros Hw Ha Hn Hq.
  assert (Hr : R o (w ++ x ++ s) b TNone r).
  { destruct (accept_first _ _ _ Ha) as (c & x' & -> & _). destruct w as [|c0 w]; [|now apply Q_R in Hq]. now apply Q_R in Hq. }
  assert (D : is_num a \/ ~ is_num a) by (destruct a; cbn; auto). destruct D as [Na|Na].
  - destruct (Hn Na) as (Lg & Ns). destruct (lex_number o w a x s b r Hw Ha Na Lg Hr) as (t & r' & E & K & H & _).
    destruct H as [H|(_ & X & _)]; [|contradiction]. exists t, r', x. repeat split; auto.
    destruct (accept_num_inv _ _ _ Ha Na) as [(z & -> & Hz)| ->]; [exact Hz|reflexivity].
  - pose proof (accept_text _ _ _ Ha Na) as Ht.
    destruct (lex_ok o w a x s b r Hw Ht ltac:(intro; contradiction) Hr) as (r' & b' & E & K & P).
    exists (tok_of a), r', b'. split; [exact E|]. split; [now left|]. split; [now apply R_Q|exact P].
Qed.

(* possibly with the first token already read ahead *)
Definition pview (o : ropts) (ts : list atok) (rest : str) (r : reader) : Prop :=
  W o ts rest r \/
  exists a ts' s b t, ts = a :: ts' /\ kind a t /\ Q o s b t r /\ payload a b /\ accepts (dia o) s ts' rest /\ nend ts' rest.
Lemma W_pview o ts rest r : W o ts rest r -> pview o ts rest r. Proof. now left. Qed.
Lemma pview_wview o ts rest r : pview o ts rest r -> wview o ts rest r.
Proof. intros [H|(a & ts' & s & b & t & E & K & Hq & _ & Ha & Hn)]; [now left|]. right. exists a, ts', s, b, t. auto. Qed.
Lemma pview_ok o ts rest r : pview o ts rest r -> rok r = true.
Proof. intro H. eapply wview_ok, pview_wview, H. Qed.
Lemma W_ok o ts rest r : W o ts rest r -> rok r = true.
Proof. intro H. eapply pview_ok, W_pview, H. Qed.

Lemma lex_P o a ts rest r : W o (a :: ts) rest r -> rtok r = TNone /\
  exists t r' s' b', lex_token r = Ok (t, r') /\ kind a t /\ Q o s' b' TNone r' /\ payload a b' /\ accepts (dia o) s' ts rest /\ nend ts rest.
Proof.
  intros (s & b & Hq & Ha & Hn). split; [eapply Q_tok; eauto|].
  inversion Ha as [|w a0 x s' ? ? Bw Hx Hl Hrest]; subst.
  destruct (lex_accept_pay o w a x s' b r Bw Hx) as (t & r' & b' & E & K & H' & P).
  - intro Na. split; [auto|]. intros ->. destruct ts as [|u ts].
    + inversion Hrest; subst. destruct (Hn eq_refl) as [X|(ts' & u & X & Hu)]; [discriminate|]. destruct ts' as [|v ts']; [injection X as ->; contradiction|].
      injection X as _ X. destruct ts'; discriminate.
    + exact (accepts_ne _ _ _ _ _ Hrest eq_refl).
  - exact Hq.
  - exists t, r', s', b'. repeat split; auto. eapply nend_tl; eauto.
Qed.
Lemma next_kind o a ts rest r : pview o (a :: ts) rest r -> exists t r', next_tok r = Ok (t, r') /\ kind a t /\ W o ts rest r' /\ payload a (rbuf r').
Proof.
  intros [H|(a0 & ts' & s & b & t & E & K & Hq & P & Ha & Hn)].
  - destruct (lex_P _ _ _ _ _ H) as (Et & t & r' & s' & b' & E & K & Hq & P & Ha & Hn). unfold next_tok. rewrite Et. cbn [same_type].
    exists t, r'. rewrite (Q_buf _ _ _ _ _ Hq). repeat split; auto. exists s', b'. auto.
  - injection E as <- <-. unfold next_tok. rewrite (Q_tok _ _ _ _ _ Hq), (kind_not_none _ _ K). exists t, (set_tok TNone r).
    apply (Q_settok _ _ _ _ TNone) in Hq. rewrite (Q_buf _ _ _ _ _ Hq). repeat split; auto. exists s, b. auto.
Qed.
Lemma peek_kind o a ts rest r : pview o (a :: ts) rest r -> exists t r', peek_tok r = Ok (t, r') /\ kind a t /\ pview o (a :: ts) rest r'.
Proof.
  intros [H|(a0 & ts' & s & b & t & E & K & Hq & P & Ha & Hn)].
  - destruct (lex_P _ _ _ _ _ H) as (Et & t & r' & s' & b' & E & K & Hq & P & Ha & Hn). unfold peek_tok. rewrite Et. cbn [same_type]. rewrite E. cbn [bind].
    exists t, (set_tok t r'). split; [reflexivity|]. split; [exact K|]. right. exists a, ts, s', b', t. repeat split; auto. eapply Q_settok; eauto.
  - injection E as <- <-. unfold peek_tok. rewrite (Q_tok _ _ _ _ _ Hq), (kind_not_none _ _ K). exists t, r. repeat split; auto.
    right. exists a, ts, s, b, t. repeat split; auto.
Qed.
Lemma kind_is a t : kind a t -> a <> AFloat [45] -> t = tok_of a.
Proof. intros [->|(-> & _)] N; [reflexivity|]. now elim N. Qed.
Lemma next_P o a ts rest r : pview o (a :: ts) rest r -> a <> AFloat [45] -> exists r', next_tok r = Ok (tok_of a, r') /\ W o ts rest r' /\ payload a (rbuf r').
Proof. intros H N. destruct (next_kind _ _ _ _ _ H) as (t & r' & E & K & R). rewrite (kind_is _ _ K N) in E. eauto. Qed.
Lemma peek_P o a ts rest r : pview o (a :: ts) rest r -> a <> AFloat [45] -> exists r', peek_tok r = Ok (tok_of a, r') /\ pview o (a :: ts) rest r'.
Proof. intros H N. destruct (peek_kind _ _ _ _ _ H) as (t & r' & E & K & R). rewrite (kind_is _ _ K N) in E. eauto. Qed.
Lemma expect_P o t ts rest r exp : pview o (t :: ts) rest r -> t <> AFloat [45] -> same_type (tok_of t) exp = true ->
  exists r', expect_tok exp r = Ok (tok_of t, r') /\ W o ts rest r' /\ payload t (rbuf r').
Proof.
  intros H N E. destruct (next_P o t ts rest r H N) as (r' & E' & K). exists r'.
  unfold expect_tok. rewrite E'. cbn [bind]. rewrite E. auto.
Qed.
Lemma next_key_P o ts rest r : W o (AKey :: ts) rest r ->
  exists r', expect_tok TKey r = Ok (TKey, r') /\ W o ts rest r' /\ rbuf r' = rbuf r.
Proof.
  intros (s & b & Hq & Ha & Hn). inversion Ha as [|w a0 x s' ? ? Hw Hx Hl Hrest]; subst.
  apply accept_text in Hx; [|exact (fun x => x)]. inversion Hx; subst. change (lit ":") with [58] in *. cbn [app] in *.
  assert (Hr : R o (w ++ 58 :: s') b TNone r) by (destruct w; now apply Q_R in Hq).
  unfold expect_tok, next_tok. rewrite (R_tok _ _ _ _ _ Hr). cbn [same_type].
  unfold lex_token. rewrite (R_ok _ _ _ _ _ Hr). cbn [negb].
  destruct (next_char_ok o w Hw 58 s' b TNone r (rfuel r)) as (r1 & E1 & K1); auto; try discriminate.
  { unfold rfuel. rewrite (R_in _ _ _ _ _ Hr), app_length. nlia. }
  rewrite E1. cbn [bind]. rewrite (R_ok _ _ _ _ _ K1). cbn [negb].
  exists r1. split; [reflexivity|]. split; [exists s', b; repeat split; auto; [now apply R_Q|eapply nend_tl; eauto]|].
  rewrite (R_buf _ _ _ _ _ K1), (R_buf _ _ _ _ _ Hr). reflexivity.
Qed.

(* ---- parseArray / parseObject on the tokens of a sequence of items ---- *)

(* [pchain]: starting in state s at index i, the callback consumes the items one by
   one and ends in state s'. *)
Inductive pchain {S : Type} (o : ropts) (rest : str) (fn : nat -> S -> reader -> outcome (S * reader))
  : nat -> S -> list (list atok) -> S -> Prop :=
| pch_nil i s : pchain o rest fn i s [] s
| pch_cons i s it its s1 s' :
    (forall ts r, pview o (it ++ ts) rest r -> exists r', fn i s r = Ok (s1, r') /\ W o ts rest r') ->
    pchain o rest fn (Datatypes.S i) s1 its s' -> pchain o rest fn i s (it :: its) s'.

Inductive pkchain {S : Type} (o : ropts) (rest : str) (fn : str -> S -> reader -> outcome (S * reader))
  : S -> list (str * list atok) -> S -> Prop :=
| pkc_nil s : pkchain o rest fn s [] s
| pkc_cons s k it its s1 s' :
    (forall ts r, pview o (it ++ ts) rest r -> exists r', fn k s r = Ok (s1, r') /\ W o ts rest r') ->
    pkchain o rest fn s1 its s' -> pkchain o rest fn s ((k, it) :: its) s'.

Lemma array_loop_P {S : Type} o rest (fn : nat -> S -> reader -> outcome (S * reader)) i s its s' :
  pchain o rest fn i s its s' -> its <> [] -> forall ts r fuel,
  pview o (sep_by its ++ AArrE :: ts) rest r -> (length its <= fuel)%nat ->
  exists r', array_loop fuel fn i s r = Ok (s', r') /\ W o ts rest r'.
Proof.
  induction 1 as [i s|i s it its s1 s' Hstep Hc IH]; intros Hne ts r fuel Hv Hf; [contradiction|].
  destruct fuel as [|fuel]; [cbn in Hf; lia|]. cbn [array_loop].
  rewrite (pview_ok _ _ _ _ Hv).
  destruct its as [|it2 its].
  - cbn [sep_by] in Hv. destruct (Hstep _ _ Hv) as (r1 & E1 & K1). rewrite E1. cbn [bind].
    destruct (next_P _ _ _ _ _ (W_pview _ _ _ _ K1) ltac:(discriminate)) as (r2 & E2 & K2 & _). rewrite E2. cbn [bind tok_of same_type].
    inversion Hc; subst. exists r2. auto.
  - assert (Hv' : pview o (it ++ ASep :: sep_by (it2 :: its) ++ AArrE :: ts) rest r).
    { cbn [sep_by] in *. rewrite <- app_assoc in Hv. exact Hv. }
    destruct (Hstep _ _ Hv') as (r1 & E1 & K1). rewrite E1. cbn [bind].
    destruct (next_P _ _ _ _ _ (W_pview _ _ _ _ K1) ltac:(discriminate)) as (r2 & E2 & K2 & _). rewrite E2. cbn [bind tok_of same_type].
    unfold assert_tok. cbn [same_type]. apply IH; [discriminate|now apply W_pview|]. cbn in *. lia.
Qed.

Lemma parse_array_P {S : Type} o rest (fn : nat -> S -> reader -> outcome (S * reader)) s its s' ts r fuel :
  pchain o rest fn 0 s its s' ->
  (forall it its', its = it :: its' -> exists t it', it = t :: it' /\ t <> AArrE) ->
  pview o (arr_toks its ++ ts) rest r -> (length its <= fuel)%nat ->
  exists r', parse_array fuel fn s r = Ok (s', r') /\ W o ts rest r'.
Proof.
  intros Hc Hh Hv Hf. unfold arr_toks in Hv. cbn [app] in Hv. unfold parse_array.
  destruct (next_P _ _ _ _ _ Hv ltac:(discriminate)) as (r1 & E1 & K1 & _). rewrite E1. cbn [bind tok_of same_type].
  unfold assert_tok. cbn [same_type]. rewrite <- app_assoc in K1. cbn [app] in K1.
  destruct its as [|it its].
  - cbn [sep_by app] in K1.
    destruct (peek_P _ _ _ _ _ (W_pview _ _ _ _ K1) ltac:(discriminate)) as (r2 & E2 & K2). rewrite E2. cbn [bind tok_of same_type].
    destruct (expect_P _ _ _ _ _ TArrE K2 ltac:(discriminate) eq_refl) as (r3 & E3 & K3 & _). rewrite E3. cbn [bind].
    inversion Hc; subst. exists r3. auto.
  - destruct (Hh it its eq_refl) as (t & it' & -> & Ht).
    assert (Hs : exists u, sep_by ((t :: it') :: its) = t :: u)
      by (destruct its; cbn [sep_by app]; eexists; reflexivity).
    destruct Hs as (u & Hs). pose proof K1 as K1'. rewrite Hs in K1'. cbn [app] in K1'.
    destruct (peek_kind _ _ _ _ _ (W_pview _ _ _ _ K1')) as (t2 & r2 & E2 & Kt2 & K2). rewrite E2. cbn [bind]. rewrite (kind_arre _ _ Kt2 Ht).
    assert (K2' : pview o (sep_by ((t :: it') :: its) ++ AArrE :: ts) rest r2) by (rewrite Hs; exact K2).
    exact (array_loop_P o rest fn 0 s _ s' Hc ltac:(discriminate) ts r2 fuel K2' Hf).
Qed.

Lemma object_loop_P {S : Type} o rest (fn : str -> S -> reader -> outcome (S * reader)) s its s' :
  pkchain o rest fn s its s' -> its <> [] -> forall ts r fuel,
  pview o (sep_by (map member_toks its) ++ AObjE :: ts) rest r -> (length its <= fuel)%nat ->
  exists r', object_loop fuel fn s r = Ok (s', r') /\ W o ts rest r'.
Proof.
  induction 1 as [s|s k it its s1 s' Hstep Hc IH]; intros Hne ts r fuel Hv Hf; [contradiction|].
  destruct fuel as [|fuel]; [cbn in Hf; lia|]. cbn [object_loop].
  rewrite (pview_ok _ _ _ _ Hv).
  assert (Hgo : forall tl, pview o (AStr k :: AKey :: it ++ tl) rest r ->
     exists r3, W o tl rest r3 /\ forall K,
     (do (t, r1) <- expect_tok TStr r;
      do _ <- as_string t r1;
      do (_, r2) <- expect_tok TKey r1;
      do (s1, r3) <- fn (rbuf r2) s r2; K s1 r3) = (K s1 r3 : outcome (S * reader))).
  { intros tl Hv'. destruct (expect_P _ _ _ _ _ TStr Hv' ltac:(discriminate) eq_refl) as (r1 & E1 & K1 & P1).
    cbn [payload] in P1. destruct (next_key_P _ _ _ _ K1) as (r2 & E2 & K2 & B2).
    destruct (Hstep tl r2 (W_pview _ _ _ _ K2)) as (r3 & E3 & K3).
    exists r3. split; auto. intro K. rewrite E1. cbn [bind tok_of as_string]. rewrite E2. cbn [bind].
    rewrite B2, P1, E3. reflexivity. }
  destruct its as [|kit2 its].
  - cbn [sep_by map member_toks fst snd app] in Hv. destruct (Hgo _ Hv) as (r3 & K3 & E3). rewrite E3.
    destruct (next_P _ _ _ _ _ (W_pview _ _ _ _ K3) ltac:(discriminate)) as (r4 & E4 & K4 & _). rewrite E4. cbn [bind tok_of same_type].
    inversion Hc; subst. exists r4. auto.
  - assert (Hv' : pview o (AStr k :: AKey :: it ++ ASep :: sep_by (map member_toks (kit2 :: its)) ++ AObjE :: ts) rest r).
    { change (map member_toks ((k, it) :: kit2 :: its)) with ((AStr k :: AKey :: it) :: map member_toks (kit2 :: its)) in Hv.
      change (map member_toks (kit2 :: its)) with (member_toks kit2 :: map member_toks its) in *.
      cbn [sep_by] in *. rewrite <- app_assoc in Hv. exact Hv. }
    destruct (Hgo _ Hv') as (r3 & K3 & E3). rewrite E3.
    destruct (next_P _ _ _ _ _ (W_pview _ _ _ _ K3) ltac:(discriminate)) as (r4 & E4 & K4 & _). rewrite E4. cbn [bind tok_of same_type].
    unfold assert_tok. cbn [same_type]. apply IH; [discriminate|now apply W_pview|]. cbn in *. lia.
Qed.

Lemma parse_object_P {S : Type} o rest (fn : str -> S -> reader -> outcome (S * reader)) s its s' ts r fuel :
  pkchain o rest fn s its s' ->
  pview o (obj_toks its ++ ts) rest r -> (length its <= fuel)%nat ->
  exists r', parse_object fuel fn s r = Ok (s', r') /\ W o ts rest r'.
Proof.
  intros Hc Hv Hf. unfold obj_toks in Hv. cbn [app] in Hv. unfold parse_object.
  destruct (next_P _ _ _ _ _ Hv ltac:(discriminate)) as (r1 & E1 & K1 & _). rewrite E1. cbn [bind tok_of same_type].
  unfold assert_tok. cbn [same_type]. rewrite <- app_assoc in K1. cbn [app] in K1.
  destruct its as [|[k it] its].
  - cbn [map sep_by app] in K1.
    destruct (peek_P _ _ _ _ _ (W_pview _ _ _ _ K1) ltac:(discriminate)) as (r2 & E2 & K2). rewrite E2. cbn [bind tok_of same_type].
    destruct (expect_P _ _ _ _ _ TObjE K2 ltac:(discriminate) eq_refl) as (r3 & E3 & K3 & _). rewrite E3. cbn [bind].
    inversion Hc; subst. exists r3. auto.
  - assert (Hs : exists u, sep_by (map member_toks ((k, it) :: its)) = AStr k :: u)
      by (destruct its; cbn [sep_by map member_toks fst snd app]; eexists; reflexivity).
    destruct Hs as (u & Hs). pose proof K1 as K1'. rewrite Hs in K1'. cbn [app] in K1'.
    destruct (peek_P _ _ _ _ _ (W_pview _ _ _ _ K1') ltac:(discriminate)) as (r2 & E2 & K2). rewrite E2. cbn [bind tok_of same_type].
    assert (K2' : pview o (sep_by (map member_toks ((k, it) :: its)) ++ AObjE :: ts) rest r2) by (rewrite Hs; exact K2).
    exact (object_loop_P o rest fn s _ s' Hc ltac:(discriminate) ts r2 fuel K2' Hf).
Qed.

(* null is accepted in place of an array or object and changes nothing *)
Lemma parse_array_nullP {S : Type} o rest (fn : nat -> S -> reader -> outcome (S * reader)) s ts r fuel :
  pview o (ANull :: ts) rest r -> exists r', parse_array fuel fn s r = Ok (s, r') /\ W o ts rest r'.
Proof.
  intro Hv. unfold parse_array. destruct (next_P _ _ _ _ _ Hv ltac:(discriminate)) as (r1 & E1 & K1 & _).
  rewrite E1. exists r1. auto.
Qed.
Lemma parse_object_nullP {S : Type} o rest (fn : str -> S -> reader -> outcome (S * reader)) s ts r fuel :
  pview o (ANull :: ts) rest r -> exists r', parse_object fuel fn s r = Ok (s, r') /\ W o ts rest r'.
Proof.
  intro Hv. unfold parse_object. destruct (next_P _ _ _ _ _ Hv ltac:(discriminate)) as (r1 & E1 & K1 & _).
  rewrite E1. exists r1. auto.
Qed.

