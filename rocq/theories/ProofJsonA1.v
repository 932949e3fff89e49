(* ProofJsonA1.v - what the tokenizer accepts: every token it produces without error
   is spelled by the bytes it consumed *)
From Coq Require String. Import String.StringSyntax.
From Verif Require Import Base Dec ModelJson SpecJson SpecJsonA ProofJson1 ProofJson2 ProofJson3 ProofJson4 ProofJson5 ProofJson8.
Local Open Scope outcome_scope.
Local Open Scope N_scope.

(* the stream ended and nothing was reported *)
Definition ended (r : reader) : Prop := rerr r = None /\ rfail r = true.
Lemma ended_not_ok r : ended r -> rok r = false.
Proof. intros (A & B). unfold rok. now rewrite A, B. Qed.
Lemma not_ok_cases r : rok r = false -> ended r \/ rerr r <> None.
Proof. unfold rok, ended. destruct (rerr r); [right; discriminate|]. destruct (rfail r); [auto|discriminate]. Qed.

(* a good reader on the text s; the end of the text may have been seen *)
Definition Q (o : ropts) (s b : str) (t : token) (r : reader) : Prop :=
  exists e p l, r = mkR s e false None p l b t o /\ (e = true -> s = []).
Lemma R_Q o s b t r : R o s b t r -> Q o s b t r.
Proof. intros (p & l & ->). exists false, p, l. split; [reflexivity|discriminate]. Qed.
Lemma Q_R o c s b t r : Q o (c :: s) b t r -> R o (c :: s) b t r.
Proof. intros ([|] & p & l & -> & H); [specialize (H eq_refl); discriminate|]. now exists p, l. Qed.
Lemma Q_ok o s b t r : Q o s b t r -> rok r = true.
Proof. now intros (e & p & l & -> & _). Qed.
Lemma Q_in o s b t r : Q o s b t r -> rin r = s.
Proof. now intros (e & p & l & -> & _). Qed.
Lemma Q_buf o s b t r : Q o s b t r -> rbuf r = b.
Proof. now intros (e & p & l & -> & _). Qed.
Lemma Q_tok o s b t r : Q o s b t r -> rtok r = t.
Proof. now intros (e & p & l & -> & _). Qed.
Lemma Q_opt o s b t r : Q o s b t r -> ropt r = o.
Proof. now intros (e & p & l & -> & _). Qed.
Lemma Q_settok o s b t t' r : Q o s b t r -> Q o s b t' (set_tok t' r).
Proof. intros (e & p & l & -> & H). now exists e, p, l. Qed.
Lemma Q_save o c s b t r : Q o s b t r -> Q o s (b ++ [c]) t (save c r).
Proof. intros (e & p & l & -> & H). now exists e, p, l. Qed.

Lemma pop_inv o s b t r c r1 : Q o s b t r -> popc r = (c, r1) ->
  (exists s', s = c :: s' /\ R o s' b t r1) \/ (s = [] /\ c = 255 /\ ended r1).
Proof.
  intros H E. destruct s as [|a s].
  - right. destruct H as ([|] & p & l & -> & _); unfold popc in E; cbn in E; injection E as <- <-; repeat split.
  - destruct (R_pop _ _ _ _ _ _ (Q_R _ _ _ _ _ _ H)) as (r2 & E2 & H2). rewrite E2 in E. injection E as <- <-. left. eauto.
Qed.
Lemma peek_inv o s b t r c r1 : Q o s b t r -> peekc r = (c, r1) ->
  (exists s', s = c :: s' /\ r1 = r) \/ (s = [] /\ c = 255 /\ (Q o [] b t r1 /\ reof r1 = true \/ ended r1 /\ rbuf r1 = b)).
Proof.
  intros H E. destruct s as [|a s].
  - right. destruct H as ([|] & p & l & -> & _); unfold peekc in E; cbn in E; injection E as <- <-; repeat split; auto.
    + right. repeat split.
    + left. split; [now exists true, p, l|reflexivity].
  - rewrite (R_peek _ _ _ _ _ _ (Q_R _ _ _ _ _ _ H)) in E. injection E as <- <-. left. eauto.
Qed.

Lemma be_space d c s : space_char c -> blank_end d s -> blank_end d (c :: s).
Proof.
  intros H B. inversion B as [w Hw|w bb Hc Hw Hn]; subst.
  - apply be_blank. (now apply bl_space) || now apply bl_comment.
  - apply (be_comment d (c :: w) bb); auto. now constructor.
Qed.
Lemma be_line d b s : d_comments d = true -> ~ In 10 b -> blank_end d s -> blank_end d (47 :: 47 :: b ++ 10 :: s).
Proof.
  intros H N B. inversion B as [w Hw|w bb Hc Hw Hn]; subst.
  - apply be_blank. (now apply bl_space) || now apply bl_comment.
  - replace (47 :: 47 :: b ++ 10 :: w ++ 47 :: 47 :: bb) with ((47 :: 47 :: b ++ 10 :: w) ++ 47 :: 47 :: bb)
      by (cbn; now rewrite <- app_assoc).
    apply be_comment; auto. now apply bl_comment.
Qed.
Lemma be_last d b : d_comments d = true -> ~ In 10 b -> blank_end d (47 :: 47 :: b).
Proof. intros H N. apply (be_comment d [] b); auto. constructor. Qed.

Lemma skip_comment_inv o b t : forall fuel s r r', Q o s b t r -> skip_comment fuel r = Ok r' ->
  (exists bb s', s = bb ++ 10 :: s' /\ ~ In 10 bb /\ R o s' b t r') \/ (ended r' /\ ~ In 10 s).
Proof.
  induction fuel as [|f IH]; intros s r r' H E; cbn [skip_comment] in E; [discriminate|].
  rewrite (Q_ok _ _ _ _ _ H) in E. destruct (popc r) as [c r1] eqn:Ep.
  destruct (pop_inv _ _ _ _ _ _ _ H Ep) as [(s' & -> & H1)|(-> & -> & E1)].
  - destruct (c =? c_nl) eqn:Ec.
    + apply N.eqb_eq in Ec. injection E as <-. left. exists [], s'. subst c. repeat split; auto.
    + apply N.eqb_neq in Ec. unfold c_nl in Ec. destruct (IH s' r1 r' (R_Q _ _ _ _ _ H1) E) as [(bb & s2 & -> & N & H2)|(En & N)].
      * left. exists (c :: bb), s2. repeat split; auto. intros [X|X]; [congruence|auto].
      * right. split; auto. intros [X|X]; [congruence|auto].
  - right. cbn in E. destruct f as [|f]; cbn [skip_comment] in E; [discriminate|].
    rewrite (ended_not_ok _ E1) in E. injection E as <-. auto.
Qed.

Lemma next_char_end fuel r c r' : rok r = false -> next_char fuel r = Ok (c, r') -> r' = r.
Proof. destruct fuel; cbn [next_char]; [discriminate|]. intros -> E. congruence. Qed.

Lemma skip_comment_stop fuel r r' : rok r = false -> skip_comment fuel r = Ok r' -> r' = r.
Proof. destruct fuel; cbn [skip_comment]; [discriminate|]. intros -> E. congruence. Qed.

(* blanks *)
Lemma next_char_inv o b t : forall fuel s r c r', Q o s b t r -> next_char fuel r = Ok (c, r') ->
  (rok r' = true -> exists w s', s = w ++ c :: s' /\ blank (dia o) w /\ isspace c = false /\ (c <> 47 -> R o s' b t r')) /\
  (ended r' -> blank_end (dia o) s).
Proof.
  induction fuel as [|f IH]; intros s r c r' H E; cbn [next_char] in E; [discriminate|].
  rewrite (Q_ok _ _ _ _ _ H) in E. destruct (popc r) as [a r1] eqn:Ep.
  destruct (pop_inv _ _ _ _ _ _ _ H Ep) as [(s' & -> & H1)|(-> & -> & E1)].
  2:{ change (255 =? c_nl) with false in E. change (isspace 255) with false in E. change (255 =? c_slash) with false in E.
      cbn iota in E. injection E as <- <-. split; [rewrite (ended_not_ok _ E1); discriminate|].
      intros _. apply be_blank. constructor. }
  set (r2 := if a =? c_nl then newline r1 else r1) in E.
  assert (H2 : R o s' b t r2) by (unfold r2; destruct (a =? c_nl); auto using R_newline).
  clearbody r2. destruct (isspace a) eqn:Es.
  - destruct (IH _ _ _ _ (R_Q _ _ _ _ _ H2) E) as (A & B). apply isspace_iff in Es. split.
    + intro Hok. destruct (A Hok) as (w & s2 & -> & Bw & Sc & Hr). exists (a :: w), s2. repeat split; auto. now constructor.
    + intro En. apply be_space; auto.
  - destruct (a =? c_slash) eqn:Ea.
    + apply N.eqb_eq in Ea. subst a. destruct (peekc r2) as [d r3] eqn:Ek.
      destruct (peek_inv _ _ _ _ _ _ _ (R_Q _ _ _ _ _ H2) Ek) as [(s2 & -> & ->)|(-> & -> & H3)].
      * destruct (d =? c_slash) eqn:Ed.
        -- apply N.eqb_eq in Ed. subst d.
           apply bind_Ok in E as (r4 & E4 & E). rewrite (R_opt _ _ _ _ _ H2) in E4.
           destruct (o_comments o) eqn:Eo.
           ++ destruct (skip_comment_inv _ _ _ _ _ _ _ (R_Q _ _ _ _ _ H2) E4) as [(bb & s3 & Eb & N & H4)|(En & N)].
              ** destruct bb as [|x bb]; [discriminate Eb|]. cbn [app] in Eb. injection Eb as <- ->.
                 assert (N' : ~ In 10 bb) by (intro X; apply N; now right).
                 destruct (IH _ _ _ _ (R_Q _ _ _ _ _ H4) E) as (A & B). split.
                 --- intro Hok. destruct (A Hok) as (w & s4 & -> & Bw & Sc & Hr).
                     exists (47 :: 47 :: bb ++ 10 :: w), s4. split; [cbn; now rewrite <- app_assoc|].
                     split; [apply bl_comment; auto|]. split; auto.
                 --- intro En. apply be_line; auto.
              ** rewrite (next_char_end _ _ _ _ (ended_not_ok _ En) E) in *. split; [rewrite (ended_not_ok _ En); discriminate|].
                 intros _. apply be_last; auto. intro X. apply N. now right.
           ++ assert (X : r4 = rerror_set EComment r2) by (eapply skip_comment_stop; [apply err_not_ok|exact E4]). subst r4.
              rewrite (next_char_end _ _ _ _ (err_not_ok _ _) E) in *.
              split; [rewrite err_not_ok; discriminate|]. intros (X & _). destruct H2 as (p & l & ->). discriminate.
        -- injection E as <- <-. split.
           ++ intros _. exists [], (d :: s2). split; [reflexivity|]. split; [constructor|]. split; [exact Es|]. intro X. exfalso. now apply X.
           ++ intros (_ & Hf). exfalso. destruct H2 as (p & l & ->). discriminate.
      * change (255 =? c_slash) with false in E. cbn iota in E. injection E as <- <-.
        destruct H3 as [(H3 & _)|(En & _)].
        -- split.
           ++ intros _. exists [], []. split; [reflexivity|]. split; [constructor|]. split; [exact Es|]. intro X. exfalso. now apply X.
           ++ intro En. apply Q_ok in H3. rewrite (ended_not_ok _ En) in H3. discriminate.
        -- exfalso. destruct H2 as (p & l & ->). unfold peekc in Ek. cbn in Ek. injection Ek as <-. destruct En as (_ & En). discriminate.
    + injection E as <- <-. split.
      * intros _. exists [], s'. repeat split; auto. constructor.
      * intros (_ & Hf). exfalso. destruct H2 as (p & l & ->). discriminate.
Qed.
