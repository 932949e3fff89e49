(* ProofJsonB3.v - whole accepted texts: numbers that end the text, brackets that end it,
   and parse_text on every accepted document. *)
From Coq Require String. Import String.StringSyntax.
From Verif Require Import Base Dec ModelJson ModelJsonW ModelJsonT SpecJson SpecJsonT SpecJsonA ProofJson1 ProofJson2 ProofJson3 ProofJson4 ProofJson5 ProofJson6 ProofJson7 ProofJson8 ProofJson9 ProofJson10 ProofJsonT1 ProofJsonT2 ProofJsonA1 ProofJsonA2 ProofJsonA3 ProofJsonA7 ProofJsonA9 ProofJsonB1 ProofJsonB2.
Local Open Scope outcome_scope.

(* ---- a number that ends the text ---- *)
Definition fin (r : reader) : Prop := rerr r = None /\ (rok r = true -> rin r = []).
Definition eview (o : ropts) (a : atok) (r : reader) : Prop :=
  (exists w x b, blank (dia o) w /\ tok_accept (dia o) a x /\ Q o (w ++ x) b TNone r) \/
  (fin r /\ kind a (rtok r) /\ payload a (rbuf r)).
Lemma Qe_err o b t r : Qe o [] b t r -> fin r /\ rbuf r = b.
Proof.
  intros [(e & p & l & -> & _)|(A & _ & B)]; [repeat split|]. split; [|exact B]. split; [apply A|]. rewrite (ended_not_ok _ A). discriminate.
Qed.
Lemma lex_eview o w a x b r : is_num a -> blank (dia o) w -> tok_accept (dia o) a x -> Q o (w ++ x) b TNone r ->
  exists t r', lex_token r = Ok (t, r') /\ kind a t /\ fin r' /\ payload a (rbuf r').
Proof.
  intros Na Hw Ha Hq. destruct (lex_number o w a x [] b r Hw Ha Na (longest_nil x)) as (t & r' & E & K & H & _).
  - rewrite app_nil_r. destruct (accept_first _ _ _ Ha) as (c & x' & -> & _). destruct w; now apply Q_R in Hq.
  - exists t, r'. destruct (Qe_err _ _ _ _ H) as (A & B). rewrite B. split; [exact E|]. split; [exact K|]. split; [exact A|].
    destruct (accept_num_inv _ _ _ Ha Na) as [(z & -> & Hz)| ->]; [exact Hz|reflexivity].
Qed.
Lemma eview_next o a r : is_num a -> eview o a r ->
  exists t r', next_tok r = Ok (t, r') /\ kind a t /\ fin r' /\ payload a (rbuf r').
Proof.
  intros Na [(w & x & b & Hw & Ha & Hq)|(A & K & P)]; unfold next_tok.
  - rewrite (Q_tok _ _ _ _ _ Hq). cbn [same_type]. eapply lex_eview; eauto.
  - rewrite (kind_not_none _ _ K). exists (rtok r), (set_tok TNone r). split; [reflexivity|]. auto.
Qed.
Lemma eview_peek o a r : is_num a -> eview o a r -> exists t r', peek_tok r = Ok (t, r') /\ kind a t /\ eview o a r'.
Proof.
  intros Na [(w & x & b & Hw & Ha & Hq)|(A & K & P)]; unfold peek_tok.
  - rewrite (Q_tok _ _ _ _ _ Hq). cbn [same_type]. destruct (lex_eview _ _ _ _ _ _ Na Hw Ha Hq) as (t & r' & E & K & A & P).
    rewrite E. cbn [bind]. exists t, (set_tok t r'). split; [reflexivity|]. split; [exact K|]. right. auto.
  - rewrite (kind_not_none _ _ K). exists (rtok r), r. split; [reflexivity|]. split; [exact K|]. right. auto.
Qed.
Lemma int_eview o z r : int64 z -> eview o (AInt z) r -> exists r', parse_int r = Ok (z, r') /\ fin r'.
Proof.
  intros Hz H. destruct (eview_next _ (AInt z) _ I H) as (t & r' & E & K & A & P). apply kind_is in K; [|discriminate]. subst t. exists r'.
  unfold parse_int, expect_tok. rewrite E. cbn [bind tok_of same_type as_int]. cbn [payload] in P. rewrite (stol_ok z _ P Hz). auto.
Qed.
Lemma float_eview o x r : float_read x -> eview o (AFloat x) r -> exists r', parse_float r = Ok (x, r') /\ fin r'.
Proof.
  intros Hx H. destruct (eview_next _ (AFloat x) _ I H) as (t & r' & E & K & A & P). apply kind_is in K; [|now apply float_not_minus]. subst t. exists r'.
  unfold parse_float, assert_tok. rewrite E. cbn [bind tok_of same_type as_float]. cbn [payload] in P. rewrite P, (stod_ok x Hx). auto.
Qed.
Lemma reads_number o e t v j v' : reads e t v j v' -> is_number j ->
  exists n, forall f, n <= f -> forall r, eview o (ntok j) r ->
    exists r', parse_t f e t v r = Ok (v', false, r') /\ fin r'.
Proof.
  induction 1; intro Hn; try contradiction.
  - exists 1. intros f Hf r Hr. destruct f; [lia|]. cbn [parse_t]. rewrite H.
    destruct (int_eview _ _ _ H0 Hr) as (r' & E & D). rewrite E. cbn [bind]. eauto.
  - exists 1. intros f Hf r Hr. destruct f; [lia|]. cbn [parse_t]. rewrite H.
    destruct (float_eview _ _ _ H0 Hr) as (r' & E & D). rewrite E. cbn [bind]. eauto.
  - destruct (IHreads Hn) as (n & IH). exists (S n). intros f Hf r Hr. destruct f; [lia|]. cbn [parse_t]. rewrite H.
    assert (Hnum : is_num (ntok j)) by (destruct j; try contradiction; exact I).
    destruct (eview_peek _ _ _ Hnum Hr) as (tk & r1 & E & Kt & Hr1). rewrite E. cbn [bind].
    assert (Hns : same_type tk TNull = false) by (destruct Kt as [->|(_ & ->)]; [|reflexivity]; destruct j; try contradiction; reflexivity). rewrite Hns.
    destruct (IH f ltac:(lia) r1 Hr1) as (r2 & E2 & D). destruct p; rewrite E2; cbn [bind]; eauto.
  - exists 2. intros f Hf r Hr. destruct f as [|[|f]]; [lia|lia|]. cbn [parse_t]. rewrite H. cbn [parse_dyn].
    destruct j as [| |z|x| | |]; try contradiction; inversion H0; subst; cbn [ntok] in Hr.
    + destruct (eview_peek _ (AInt z) _ I Hr) as (tk & r1 & E & Kt & Hr1). apply kind_is in Kt; [|discriminate]. subst tk. rewrite E. cbn [bind tok_of].
      destruct (int_eview _ _ _ ltac:(eassumption) Hr1) as (r2 & E2 & D). rewrite E2. cbn [bind dyn_value]. eauto.
    + destruct (eview_peek _ (AFloat x) _ I Hr) as (tk & r1 & E & Kt & Hr1). apply kind_is in Kt; [|now apply float_not_minus]. subst tk. rewrite E. cbn [bind tok_of].
      destruct (float_eview _ _ _ ltac:(eassumption) Hr1) as (r2 & E2 & D). rewrite E2. cbn [bind dyn_value]. eauto.
Qed.

(* ---- an opening bracket with nothing behind it ---- *)
Definition opening (a : atok) (c : byte) (j : json) : Prop := (a = AArrS /\ c = 91%N /\ j = JArr []) \/ (a = AObjS /\ c = 123%N /\ j = JObj []).
Definition oview (o : ropts) (a : atok) (c : byte) (s : str) (r : reader) : Prop :=
  (exists w b, blank (dia o) w /\ Q o (w ++ c :: s) b TNone r) \/ (exists b, Q o s b (tok_of a) r).
Lemma lex_oview o a c j w s b r : opening a c j -> blank (dia o) w -> Q o (w ++ c :: s) b TNone r ->
  exists r' b', lex_token r = Ok (tok_of a, r') /\ Q o s b' TNone r'.
Proof.
  intros Op Hw Hq. assert (Ta : tok_accept (dia o) a [c] /\ ~ is_num a).
  { destruct Op as [(-> & -> & _)|(-> & -> & _)]; (split; [apply ta_text; constructor|exact (fun x => x)]). }
  destruct Ta as (Ta & Na). destruct (lex_accept o w a [c] s b r Hw Ta ltac:(intro; contradiction) Hq) as (t & r1 & b1 & E1 & K1 & H1).
  rewrite (kind_tok _ _ K1 Na) in E1. eauto.
Qed.
Lemma oview_next o a c j s r : opening a c j -> oview o a c s r -> exists r' b, next_tok r = Ok (tok_of a, r') /\ Q o s b TNone r'.
Proof.
  intros Op [(w & b & Hw & Hq)|(b & Hq)]; unfold next_tok; rewrite (Q_tok _ _ _ _ _ Hq).
  - cbn [same_type]. eapply lex_oview; eauto.
  - rewrite tok_not_none. exists (set_tok TNone r), b. split; [reflexivity|]. eapply Q_settok; eauto.
Qed.
Lemma oview_peek o a c j s r : opening a c j -> oview o a c s r -> exists r', peek_tok r = Ok (tok_of a, r') /\ oview o a c s r'.
Proof.
  intros Op [(w & b & Hw & Hq)|(b & Hq)]; unfold peek_tok; rewrite (Q_tok _ _ _ _ _ Hq).
  - cbn [same_type]. destruct (lex_oview _ _ _ _ _ _ _ _ Op Hw Hq) as (r' & b' & E & H). rewrite E. cbn [bind].
    exists (set_tok (tok_of a) r'). split; [reflexivity|]. right. exists b'. eapply Q_settok; eauto.
  - rewrite tok_not_none. exists r. split; [reflexivity|]. right. eauto.
Qed.
Lemma cut_array {T : Type} o (fn : nat -> T -> reader -> outcome (T * reader)) st s r f :
  oview o AArrS 91%N s r -> no_more (dia o) s -> exists r', parse_array (S f) fn st r = Ok (st, r') /\ rerr r' = None.
Proof.
  intros Ho Hm. destruct (oview_next o AArrS 91%N (JArr []) s r ltac:(left; auto) Ho) as (r1 & b1 & E1 & H1).
  destruct (peek_no_more _ _ _ _ Hm H1) as (t3 & r3 & E3 & En & K3). unfold parse_array. rewrite E1. cbn [bind tok_of same_type].
  unfold assert_tok. cbn [same_type]. rewrite E3. cbn [bind].
  assert (N3 : same_type t3 TArrE = false) by (destruct K3 as [->|[->| ->]]; auto). rewrite N3. cbn [array_loop].
  rewrite (ended_not_ok _ En). exists r3. split; [reflexivity|apply En].
Qed.
Lemma cut_object {T : Type} o (fn : str -> T -> reader -> outcome (T * reader)) st s r f :
  oview o AObjS 123%N s r -> no_more (dia o) s -> exists r', parse_object (S f) fn st r = Ok (st, r') /\ rerr r' = None.
Proof.
  intros Ho Hm. destruct (oview_next o AObjS 123%N (JObj []) s r ltac:(right; auto) Ho) as (r1 & b1 & E1 & H1).
  destruct (peek_no_more _ _ _ _ Hm H1) as (t3 & r3 & E3 & En & K3). unfold parse_object. rewrite E1. cbn [bind tok_of same_type].
  unfold assert_tok. cbn [same_type]. rewrite E3. cbn [bind].
  assert (N3 : same_type t3 TObjE = false) by (destruct K3 as [->|[->| ->]]; auto). rewrite N3. cbn [object_loop].
  rewrite (ended_not_ok _ En). exists r3. split; [reflexivity|apply En].
Qed.
Lemma reads_cut o e t v j v' : reads e t v j v' -> forall a c s, opening a c j -> no_more (dia o) s ->
  exists n, forall f, n <= f -> forall r, oview o a c s r ->
    exists r', parse_t f e t v r = Ok (v', false, r') /\ rerr r' = None.
Proof.
  induction 1; intros a c sx Op Hm; pose proof Op as [(Ea & Ec & Ej)|(Ea & Ec & Ej)]; try discriminate Ej; try subst j.
  - destruct (IHreads _ _ _ Op Hm) as (n & IH). exists (S n). intros f Hf r Hr. destruct f; [lia|]. cbn [parse_t]. rewrite H.
    destruct (oview_peek _ _ _ _ _ _ Op Hr) as (r1 & E & Hr1). rewrite E. subst a. cbn [bind tok_of same_type].
    destruct (IH f ltac:(lia) r1 Hr1) as (r2 & E2 & D). destruct p; rewrite E2; cbn [bind]; eauto.
  - destruct (IHreads _ _ _ Op Hm) as (n & IH). exists (S n). intros f Hf r Hr. destruct f; [lia|]. cbn [parse_t]. rewrite H.
    destruct (oview_peek _ _ _ _ _ _ Op Hr) as (r1 & E & Hr1). rewrite E. subst a. cbn [bind tok_of same_type].
    destruct (IH f ltac:(lia) r1 Hr1) as (r2 & E2 & D). destruct p; rewrite E2; cbn [bind]; eauto.
  - exists 2. intros f Hf r Hr. destruct f as [|[|f]]; [lia|lia|]. cbn [parse_t]. rewrite H. subst a c.
    injection Ej as ->. inversion H0; subst. rewrite app_nil_r.
    match goal with |- context [parse_array (S ?f) ?fn ?s ?r] => destruct (cut_array o fn s _ r f Hr Hm) as (r1 & E & D) end.
    rewrite E. cbn [bind list_of]. eauto.
  - exists 2. intros f Hf r Hr. destruct f as [|[|f]]; [lia|lia|]. cbn [parse_t]. rewrite H. subst a c.
    injection Ej as ->. match goal with X : reads_pairs _ _ [] _ |- _ => inversion X; subst end.
    match goal with X : updated _ [] _, Y : sorted _ |- _ => rewrite (updated_unique _ _ _ Y X) end. cbn [put_all fold_left].
    match goal with |- context [parse_object (S ?f) ?fn ?s ?r] => destruct (cut_object o fn s _ r f Hr Hm) as (r1 & E & D) end.
    rewrite E. cbn [bind map_of]. eauto.
  - exists 2. intros f Hf r Hr. destruct f as [|[|f]]; [lia|lia|]. cbn [parse_t]. rewrite H. subst a c.
    injection Ej as ->. match goal with X : reads_members _ _ _ [] _ |- _ => inversion X; subst end.
    match goal with |- context [parse_object (S ?f) ?fn ?s ?r] => destruct (cut_object o fn s _ r f Hr Hm) as (r1 & E & D) end.
    rewrite E. cbn [bind obj_of]. eauto.
  - exists 4. intros f Hf r Hr. destruct f as [|[|[|f]]]; [lia|lia|lia|]. cbn [parse_t]. rewrite H.
    destruct (oview_peek _ _ _ _ _ _ Op Hr) as (r1 & E & Hr1). subst a c. cbn [parse_dyn]. rewrite E. cbn [bind tok_of].
    match goal with |- context [parse_array (S ?f) ?fn ?s ?r] => destruct (cut_array o fn s _ r f Hr1 Hm) as (r2 & E2 & D) end.
    rewrite E2. cbn [bind dyn_value map]. eauto.
  - exists 4. intros f Hf r Hr. destruct f as [|[|[|f]]]; [lia|lia|lia|]. cbn [parse_t]. rewrite H.
    destruct (oview_peek _ _ _ _ _ _ Op Hr) as (r1 & E & Hr1). subst a c. cbn [parse_dyn]. rewrite E. cbn [bind tok_of].
    match goal with |- context [parse_object (S ?f) ?fn ?s ?r] => destruct (cut_object o fn s _ r f Hr1 Hm) as (r2 & E2 & D) end.
    rewrite E2. cbn [bind dyn_value map firsts]. eauto.
Qed.

(* ---- texts ---- *)
Lemma init_Q o s : Q o s [] TNone (reader_init o s).
Proof. exists false, 1%N, 1%N. split; [reflexivity|discriminate]. Qed.
Lemma parse_doc o e t v j v' s rest : env_ok e -> t < length e -> doc_text (dia o) j s rest -> reads e t v j v' ->
  exists steps, forall fuel, steps <= fuel -> exists r, parse_text fuel o e t v s = Ok (v', r) /\ rerr r = None /\
    (rest <> [] \/ rok r = true -> rin r = rest).
Proof.
  intros He Ht D Hr. destruct (init_ok_steps e t He Ht) as (n1 & Hi).
  assert (C : (rest = [] /\ is_number j) \/ (rest <> [] \/ ~ is_number j)).
  { destruct rest; [|right; left; discriminate]. destruct j; cbn; auto. }
  destruct C as [(-> & Nj)|C].
  - destruct (reads_number o e t v j v' Hr Nj) as (n2 & Hp). exists (n1 + n2). intros fuel Hf. destruct (Hi fuel ltac:(lia)) as (c & Ec).
    unfold parse_text. rewrite Ec. cbn [bind].
    assert (Tj : toks j = [ntok j] /\ is_num (ntok j)) by (destruct j; try contradiction; split; try reflexivity; exact I).
    destruct Tj as (Tj & Na). unfold doc_text in D. rewrite Tj in D. inversion D as [|w a x s' ? ? Bw Ta Lg Dr]; subst. inversion Dr; subst.
    destruct (Hp fuel ltac:(lia) (reader_init o (w ++ x ++ []))) as (r & E & A).
    { left. exists w, x, []. repeat split; auto. rewrite app_nil_r. apply init_Q. }
    rewrite E. cbn [bind]. exists r. destruct A as (A & B). repeat split; auto. intros [X|X]; [now elim X|auto].
  - destruct (proj1 (reads_parsesP o e) _ _ _ _ Hr) as (n2 & Hp). exists (n1 + n2). intros fuel Hf. destruct (Hi fuel ltac:(lia)) as (c & Ec).
    unfold parse_text. rewrite Ec. cbn [bind].
    destruct (Hp fuel ltac:(lia) [] rest (reader_init o s)) as (mv & r & E & (s' & b' & Hq & Ac & _) & _).
    { left. exists s, []. rewrite app_nil_r. split; [apply init_Q|]. split; [exact D|]. eapply toks_nend; eauto. }
    rewrite E. cbn [bind]. exists r. inversion Ac; subst. split; [reflexivity|].
    split; [destruct Hq as (e0 & p & l & -> & _); reflexivity|]. intros _. apply (Q_in _ _ _ _ _ Hq).
Qed.
Lemma parse_cut o e t v j v' a c w s : env_ok e -> t < length e -> opening a c j -> reads e t v j v' -> blank (dia o) w -> no_more (dia o) s ->
  exists fuel r, parse_text fuel o e t v (w ++ c :: s) = Ok (v', r) /\ rerr r = None.
Proof.
  intros He Ht Op Hr Bw Hm. destruct (init_ok_steps e t He Ht) as (n1 & Hi). destruct (reads_cut o e t v j v' Hr a c s Op Hm) as (n2 & Hp).
  exists (n1 + n2). destruct (Hi (n1 + n2) ltac:(lia)) as (ch & Ec). unfold parse_text. rewrite Ec. cbn [bind].
  destruct (Hp (n1 + n2) ltac:(lia) (reader_init o (w ++ c :: s))) as (r & E & A); [left; exists w, []; split; [exact Bw|apply init_Q]|].
  rewrite E. cbn [bind]. eauto.
Qed.
Lemma parse_short o e t v v' s : env_ok e -> t < length e -> read_short (dia o) e t v v' s ->
  exists fuel r, parse_text fuel o e t v s = Ok (v', r) /\ rerr r = None.
Proof.
  intros He Ht [w x j Bw Nj Ta Hr|w s1 Bw Hm Hr|w s1 Bw Hm Hr].
  - assert (D : doc_text (dia o) j (w ++ x) []).
    { unfold doc_text. assert (Tj : toks j = [ntok j]) by (destruct j; try contradiction; reflexivity). rewrite Tj.
      replace (w ++ x) with (w ++ x ++ []) by now rewrite app_nil_r. constructor; [exact Bw|exact Ta|intros _; apply longest_nil|constructor]. }
    destruct (parse_doc o e t v j v' _ _ He Ht D Hr) as (n & H). destruct (H n (le_n n)) as (r & E & A & _). eauto.
  - eapply (parse_cut o e t v _ v' AArrS); eauto. left; auto.
  - eapply (parse_cut o e t v _ v' AObjS); eauto. right; auto.
Qed.
