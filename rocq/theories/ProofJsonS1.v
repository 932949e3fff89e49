(* ProofJsonS1.v - how deep the parsers nest: one level per opening bracket. *)
From Verif Require Import Base Dec ModelJson ModelJsonW ModelJsonT SpecJson ProofJson1 ProofJson4 ProofJson5 ProofJson7 ModelJsonS SpecJsonS.
Local Open Scope outcome_scope.
Local Open Scope nat_scope.

Lemma brackets_app a b : brackets (a ++ b) = brackets a + brackets b.
Proof. unfold brackets. now rewrite filter_app, app_length. Qed.
Lemma ev_brackets r r' : evolves r r' -> brackets (rin r') <= brackets (rin r).
Proof. intros (_ & _ & (c & E) & _). rewrite E, brackets_app. lia. Qed.

Definition opens (t : token) : nat := match t with TArrS | TObjS => 1 | _ => 0 end.
Definition br (r : reader) : nat := if rok r then brackets (rin r) + opens (rtok r) else 0.
Lemma br_not_ok r : rok r = false -> br r = 0.
Proof. unfold br. now intros ->. Qed.

Lemma next_char_br : forall fuel r c r', next_char fuel r = Ok (c, r') -> rok r' = true ->
  brackets (rin r') + (if opening c then 1 else 0) <= brackets (rin r).
Proof.
  induction fuel as [|f IH]; intros r c r' E K; cbn [next_char] in E; [discriminate|].
  destruct (rok r) eqn:Okr; [|injection E as <- <-; congruence].
  destruct (popc r) as [x r0] eqn:Ep. destruct (pop_spec _ _ _ Ep) as (Ev & Hp & _).
  set (r1 := if (x =? c_nl)%N then newline r0 else r0) in *.
  assert (I1 : rin r1 = rin r0) by (unfold r1; now destruct (x =? c_nl)%N).
  assert (K1 : rok r1 = rok r0) by (unfold r1; now destruct (x =? c_nl)%N). clearbody r1.
  assert (Le : brackets (rin r1) <= brackets (rin r)) by (rewrite I1; now apply ev_brackets).
  assert (Eq : rok r1 = true -> brackets (rin r) = (if opening x then 1 else 0) + brackets (rin r1)).
  { rewrite K1. intro Ok0. destruct (Hp Ok0) as [-> _]. rewrite I1. change (x :: rin r0) with ([x] ++ rin r0).
    rewrite brackets_app. unfold brackets at 1. cbn. now destruct (opening x). }
  destruct (isspace x).
  { specialize (IH _ _ _ E K). lia. }
  destruct (x =? c_slash)%N eqn:Es.
  2:{ injection E as <- <-. specialize (Eq K). lia. }
  destruct (peekc r1) as [y r2] eqn:Ek. destruct (peek_spec _ _ _ Ek) as (Ev2 & I2 & _).
  destruct (y =? c_slash)%N.
  2:{ injection E as <- <-. rewrite I2. specialize (Eq (ev_ok_back _ _ Ev2 K)). lia. }
  set (r3 := if o_comments (ropt r2) then r2 else rerror_set EComment r2) in *.
  assert (Ev3 : evolves r2 r3) by (unfold r3; destruct (o_comments _); [auto|apply ev_err]). clearbody r3.
  destruct (skip_comment_fine (rfuel r3) r3 (m_in_rfuel r3)) as (r4 & E4 & Ev4 & _). rewrite E4 in E. cbn [bind] in E.
  specialize (IH _ _ _ E K). pose proof (ev_brackets _ _ Ev4). pose proof (ev_brackets _ _ Ev3). rewrite I2 in *. lia.
Qed.

Lemma number_tok c r t r' : read_number c r = Ok (t, r') -> opens t = 0.
Proof. intro E. destruct (read_number_fine c r) as (t' & r2 & E' & Ht & _). rewrite E' in E. injection E as <- <-. now destruct Ht as [->| ->]. Qed.

Lemma lex_br r t r' : lex_token r = Ok (t, r') -> rok r' = true -> brackets (rin r') + opens t <= brackets (rin r).
Proof.
  intros E K. pose proof (rs_evolves _ _ (rs_lex1 _ _ _ E)) as Ev. pose proof (ev_brackets _ _ Ev) as Le.
  unfold lex_token in E. destruct (rok r) eqn:Okr; cbn [negb] in E; [|injection E as <- <-; cbn; lia].
  destruct (next_char (rfuel r) r) as [[c r1]| | | |] eqn:En; cbn [bind] in E; try discriminate.
  destruct (rok r1) eqn:Ok1; cbn [negb] in E; [|injection E as <- <-; cbn; lia].
  pose proof (next_char_br _ _ _ _ En Ok1) as Hb. unfold opening in Hb.
  destruct (c =? 123)%N eqn:E1; [injection E as <- <-; rewrite orb_true_r in Hb; cbn; lia|].
  destruct (c =? 125)%N; [injection E as <- <-; cbn; lia|].
  destruct (c =? 91)%N eqn:E2; [injection E as <- <-; cbn in Hb; cbn; lia|].
  destruct (c =? 93)%N; [injection E as <- <-; cbn; lia|].
  destruct (c =? 44)%N; [injection E as <- <-; cbn; lia|].
  destruct (c =? 58)%N; [injection E as <- <-; cbn; lia|].
  destruct (c =? 110)%N; [apply (f_equal (fun x => match x with Ok y => fst y | _ => TNone end)) in E; cbn in E; subst t; cbn; lia|].
  destruct (c =? 116)%N; [apply (f_equal (fun x => match x with Ok y => fst y | _ => TNone end)) in E; cbn in E; subst t; cbn; lia|].
  destruct (c =? 102)%N; [apply (f_equal (fun x => match x with Ok y => fst y | _ => TNone end)) in E; cbn in E; subst t; cbn; lia|].
  destruct (c =? c_quote)%N.
  { destruct (read_string r1); cbn [bind] in E; try discriminate. apply (f_equal (fun x => match x with Ok y => fst y | _ => TNone end)) in E; cbn in E; subst t; cbn; lia. }
  destruct (_ || _)%bool; [rewrite (number_tok _ _ _ _ E); lia|].
  apply (f_equal (fun x => match x with Ok y => fst y | _ => TNone end)) in E; cbn in E; subst t; cbn; lia.
Qed.

Lemma next_br r t r' : next_tok r = Ok (t, r') -> br r' <= br r /\ (rok r' = true -> br r' + opens t <= br r).
Proof.
  intro E. destruct (rok r') eqn:K; [|rewrite (br_not_ok _ K); split; [lia|discriminate]].
  unfold next_tok in E. destruct (same_type (rtok r) TNone) eqn:Et.
  - pose proof (lex_br _ _ _ E K) as L. pose proof (lex_back _ _ _ E K) as Okr. destruct (lex_mr _ _ _ E Okr K) as [_ T].
    unfold br. rewrite K, Okr, T. destruct (rtok r); try discriminate. cbn. split; [|intros _]; lia.
  - injection E as <- <-. unfold br. change (rok (set_tok TNone r)) with (rok r) in *. rewrite K. cbn [rtok set_tok rin opens].
    split; [|intros _]; lia.
Qed.
Lemma peek_br r t r' : peek_tok r = Ok (t, r') -> br r' <= br r.
Proof.
  intro E. destruct (rok r') eqn:K; [|rewrite (br_not_ok _ K); lia].
  unfold peek_tok in E. destruct (same_type (rtok r) TNone) eqn:Et; [|injection E as <- <-; lia].
  destruct (lex_token r) as [[t1 r1]| | | |] eqn:El; cbn [bind] in E; try discriminate. injection E as <- <-.
  change (rok (set_tok t1 r1)) with (rok r1) in K.
  pose proof (lex_br _ _ _ El K) as L. pose proof (lex_back _ _ _ El K) as Okr.
  unfold br. change (rok (set_tok t1 r1)) with (rok r1). rewrite K, Okr. cbn [rin rtok set_tok]. lia.
Qed.
Lemma assert_br t x r : br (assert_tok t x r) <= br r.
Proof. unfold assert_tok. destruct (same_type t x); [lia|]. rewrite br_not_ok by apply err_not_ok. lia. Qed.
Lemma expect_br x r t r' : expect_tok x r = Ok (t, r') -> br r' <= br r.
Proof.
  unfold expect_tok. intro E. destruct (next_tok r) as [[t1 r1]| | | |] eqn:En; cbn [bind] in E; try discriminate.
  destruct (next_br _ _ _ En) as [L _]. destruct (same_type t1 x); injection E as <- <-; auto.
  pose proof (assert_br t1 x r1). lia.
Qed.

(* ends, and gives back neither input nor brackets *)
Definition goodb {A} (r : reader) (x : outcome (A * reader)) : Prop :=
  x <> OutOfFuel /\ forall a r', x = Ok (a, r') -> mr r' <= mr r /\ br r' <= br r.
Lemma goodb_of {A} r (x : outcome (A * reader)) : good r x -> (forall a r', x = Ok (a, r') -> br r' <= br r) -> goodb r x.
Proof. intros [G1 G2] B. split; [exact G1|]. intros a r' E. split; eauto. Qed.
Lemma goodb_next r : goodb r (next_tok r).
Proof. apply goodb_of; [apply next_good|]. intros a r' E. now apply next_br in E. Qed.
Lemma goodb_peek r : goodb r (peek_tok r).
Proof. apply goodb_of; [apply peek_good|]. intros a r' E. now apply peek_br in E. Qed.
Lemma goodb_expect x r : goodb r (expect_tok x r).
Proof. apply goodb_of; [apply expect_good|]. intros a r' E. now apply expect_br in E. Qed.
Lemma goodb_ret {A} (a : A) r : goodb r (Ok (a, r)).
Proof. split; [discriminate|]. intros b r' H. injection H as <- <-. lia. Qed.
Lemma goodb_bind {A B} r (x : outcome (A * reader)) (f : A -> reader -> outcome (B * reader)) :
  goodb r x -> (forall a r1, x = Ok (a, r1) -> mr r1 <= mr r -> br r1 <= br r -> goodb r1 (f a r1)) -> goodb r (do (a, r1) <- x; f a r1).
Proof.
  intros [G1 G2] F. destruct x as [[a r1]| | | |]; cbn [bind]; try (split; discriminate); [|contradiction].
  destruct (G2 _ _ eq_refl) as [M B0]. destruct (F a r1 eq_refl M B0) as [F1 F2]. split; [exact F1|]. intros b r' E. destruct (F2 _ _ E). lia.
Qed.
Lemma goodb_weak {A} r r1 (x : outcome (A * reader)) : goodb r1 x -> mr r1 <= mr r -> br r1 <= br r -> goodb r x.
Proof. intros [G1 G2] M B. split; [exact G1|]. intros a r' E. destruct (G2 _ _ E). lia. Qed.
Lemma goodb_stop {A} r (x : outcome (A * reader)) : x <> OutOfFuel -> (forall y, x <> Ok y) -> goodb r x.
Proof. intros N M. split; [exact N|]. intros a r' E. now apply M in E. Qed.

Lemma bool_b r : goodb r (parse_bool r).
Proof. apply goodb_bind; [apply goodb_expect|]. intros t r1 _ _ _. destruct t; cbn; try (split; discriminate). apply goodb_ret. Qed.
Lemma int_b r : goodb r (parse_int r).
Proof.
  apply goodb_bind; [apply goodb_expect|]. intros t r1 _ _ _. destruct t; cbn [as_int bind]; try (split; discriminate).
  pose proof (stol_nf (rbuf r1)). destruct (stol (rbuf r1)); cbn [bind]; try (split; discriminate); [apply goodb_ret|contradiction].
Qed.
Lemma string_b r : goodb r (parse_string r).
Proof. apply goodb_bind; [apply goodb_expect|]. intros t r1 _ _ _. destruct t; cbn; try (split; discriminate). apply goodb_ret. Qed.
Lemma float_b r : goodb r (parse_float r).
Proof.
  apply goodb_bind; [apply goodb_next|]. intros t r1 _ _ _. cbv zeta.
  destruct t; cbn [as_float bind same_type assert_tok]; try (split; discriminate).
  change (assert_tok TFloat TFloat r1) with r1.
  pose proof (stod_nf (rbuf r1)). destruct (stod (rbuf r1)); cbn [bind]; try (split; discriminate); [apply goodb_ret|contradiction].
Qed.

Lemma object_loop_b {S : Type} (fn : str -> S -> reader -> outcome (S * reader)) M B :
  (forall k s r, mr r <= M -> br r <= B -> goodb r (fn k s r)) ->
  forall fuel s r, mr r <= M -> br r <= B -> mr r < fuel -> goodb r (object_loop fuel fn s r).
Proof.
  intro Hf. induction fuel as [|f IH]; intros s r HM HB Hl; [lia|]. cbn [object_loop].
  destruct (rok r) eqn:Okr; [|apply goodb_ret].
  apply goodb_bind; [apply goodb_expect|]. intros t1 r1 _ M1 B1. destruct t1; cbn [as_string bind]; try (split; discriminate).
  apply goodb_bind; [apply goodb_expect|]. intros t2 r2 _ M2 B2.
  apply goodb_bind; [apply Hf; lia|]. intros s1 r3 _ M3 B3.
  apply goodb_bind; [apply goodb_next|]. intros t4 r4 E4 M4 B4.
  assert (L4 : mr r4 < mr r).
  { destruct (rok r3) eqn:Ok3; [pose proof (proj2 (next_good r3) _ _ Ok3 E4); lia|].
    rewrite (mr_not_ok _ Ok3) in M4. pose proof (mr_ok _ Okr). lia. }
  destruct (same_type _ _); [apply goodb_ret|].
  pose proof (assert_mr t4 TSep r4) as La. pose proof (assert_br t4 TSep r4) as Lb.
  apply (goodb_weak r4 (assert_tok t4 TSep r4)); auto. apply IH; lia.
Qed.
Lemma array_loop_b {S : Type} (fn : nat -> S -> reader -> outcome (S * reader)) M B :
  (forall k s r, mr r <= M -> br r <= B -> goodb r (fn k s r)) ->
  forall fuel i s r, mr r <= M -> br r <= B -> mr r < fuel -> goodb r (array_loop fuel fn i s r).
Proof.
  intro Hf. induction fuel as [|f IH]; intros i s r HM HB Hl; [lia|]. cbn [array_loop].
  destruct (rok r) eqn:Okr; [|apply goodb_ret].
  apply goodb_bind; [apply Hf; lia|]. intros s1 r3 _ M3 B3.
  apply goodb_bind; [apply goodb_next|]. intros t4 r4 E4 M4 B4.
  assert (L4 : mr r4 < mr r).
  { destruct (rok r3) eqn:Ok3; [pose proof (proj2 (next_good r3) _ _ Ok3 E4); lia|].
    rewrite (mr_not_ok _ Ok3) in M4. pose proof (mr_ok _ Okr). lia. }
  destruct (same_type _ _); [apply goodb_ret|].
  pose proof (assert_mr t4 TSep r4) as La. pose proof (assert_br t4 TSep r4) as Lb.
  apply (goodb_weak r4 (assert_tok t4 TSep r4)); auto. apply IH; lia.
Qed.

(* the callback only sees readers with less input and a bracket less *)
Lemma object_b {S : Type} (fn : str -> S -> reader -> outcome (S * reader)) n s r :
  (forall k s' r', mr r' < mr r -> br r' < br r -> goodb r' (fn k s' r')) ->
  mr r <= n -> 1 <= n -> goodb r (parse_object n fn s r).
Proof.
  intros Hf H1 H2. unfold parse_object. apply goodb_bind; [apply goodb_next|]. intros t r1 E1 M1 B1.
  destruct (same_type t TNull); [apply goodb_ret|].
  pose proof (assert_mr t TObjS r1) as La. pose proof (assert_br t TObjS r1) as Lb.
  apply (goodb_weak r1 (assert_tok t TObjS r1)); auto.
  apply goodb_bind; [apply goodb_peek|]. intros t2 r2 E2 M2 B2.
  destruct (same_type t2 TObjE).
  { apply goodb_bind; [apply goodb_expect|]. intros t3 r3 _ _ _. apply goodb_ret. }
  destruct (rok r2) eqn:Ok2.
  2:{ destruct n as [|n]; [lia|]. cbn [object_loop]. rewrite Ok2. apply goodb_ret. }
  assert (Oka : rok (assert_tok t TObjS r1) = true) by (eapply ev_ok_back; [apply rs_evolves; eapply rs_peek; exact E2|exact Ok2]).
  assert (Et : same_type t TObjS = true).
  { unfold assert_tok in Oka. destruct (same_type t TObjS); auto. rewrite err_not_ok in Oka. discriminate. }
  unfold assert_tok in *. rewrite Et in *.
  assert (Okr : rok r = true) by (eapply ev_ok_back; [apply rs_evolves; eapply rs_next; exact E1|exact Oka]).
  pose proof (proj2 (next_good r) _ _ Okr E1) as Lm. destruct (next_br _ _ _ E1) as [_ Lo]. specialize (Lo Oka).
  destruct t; try discriminate. cbn [opens] in Lo.
  apply (object_loop_b fn (mr r - 1) (br r - 1)); try lia. intros k s' r' A C. apply Hf; lia.
Qed.
Lemma array_b {S : Type} (fn : nat -> S -> reader -> outcome (S * reader)) n s r :
  (forall k s' r', mr r' < mr r -> br r' < br r -> goodb r' (fn k s' r')) ->
  mr r <= n -> 1 <= n -> goodb r (parse_array n fn s r).
Proof.
  intros Hf H1 H2. unfold parse_array. apply goodb_bind; [apply goodb_next|]. intros t r1 E1 M1 B1.
  destruct (same_type t TNull); [apply goodb_ret|].
  pose proof (assert_mr t TArrS r1) as La. pose proof (assert_br t TArrS r1) as Lb.
  apply (goodb_weak r1 (assert_tok t TArrS r1)); auto.
  apply goodb_bind; [apply goodb_peek|]. intros t2 r2 E2 M2 B2.
  destruct (same_type t2 TArrE).
  { apply goodb_bind; [apply goodb_expect|]. intros t3 r3 _ _ _. apply goodb_ret. }
  destruct (rok r2) eqn:Ok2.
  2:{ destruct n as [|n]; [lia|]. cbn [array_loop]. rewrite Ok2. apply goodb_ret. }
  assert (Oka : rok (assert_tok t TArrS r1) = true) by (eapply ev_ok_back; [apply rs_evolves; eapply rs_peek; exact E2|exact Ok2]).
  assert (Et : same_type t TArrS = true).
  { unfold assert_tok in Oka. destruct (same_type t TArrS); auto. rewrite err_not_ok in Oka. discriminate. }
  unfold assert_tok in *. rewrite Et in *.
  assert (Okr : rok r = true) by (eapply ev_ok_back; [apply rs_evolves; eapply rs_next; exact E1|exact Oka]).
  pose proof (proj2 (next_good r) _ _ Okr E1) as Lm. destruct (next_br _ _ _ E1) as [_ Lo]. specialize (Lo Oka).
  destruct t; try discriminate. cbn [opens] in Lo.
  apply (array_loop_b fn (mr r - 1) (br r - 1)); try lia. intros k s' r' A C. apply Hf; lia.
Qed.

Definition goodb1 (r : reader) (x : outcome reader) : Prop :=
  x <> OutOfFuel /\ forall r', x = Ok r' -> mr r' <= mr r /\ br r' <= br r.
Lemma goodb_unit {A} (c : A) r (x : outcome reader) : goodb1 r x -> goodb r (do r' <- x; Ok (c, r')).
Proof.
  intros [G1 G2]. destruct x; cbn [bind]; try (split; discriminate); [|contradiction].
  split; [discriminate|]. intros b r' H. injection H as <- <-. auto.
Qed.
Lemma goodb_snd {A} r r1 (x : outcome (A * reader)) : goodb r1 x -> mr r1 <= mr r -> br r1 <= br r -> goodb1 r (do (_, r') <- x; Ok r').
Proof.
  intros [G1 G2] L L'. destruct x as [[a r2]| | | |]; cbn [bind]; try (split; discriminate); [|contradiction].
  specialize (G2 _ _ eq_refl). split; [discriminate|]. intros r' H. injection H as <-. lia.
Qed.

Lemma skip_b : forall d n r, br r < d -> mr r <= n -> 1 <= n -> goodb1 r (skip_s d n r).
Proof.
  induction d as [|d IH]; intros n r Hl Hn H1; [lia|]. cbn [skip_s].
  destruct (goodb_peek r) as [P1 P2]. destruct (peek_tok r) as [[t r1]| | | |] eqn:Ep; cbn [bind];
    try (split; discriminate); [|contradiction]. destruct (P2 _ _ eq_refl) as [M1 B1].
  destruct (rok r1) eqn:Ok1; cbn [negb].
  2:{ split; [discriminate|]. intros r' H. injection H as <-. lia. }
  assert (Hc : forall r', mr r' < mr r1 -> br r' < br r1 -> goodb r' (do q <- skip_s d n r'; Ok (tt, q))).
  { intros r' A C. apply goodb_unit, IH; lia. }
  destruct t; try (split; discriminate).
  1: eapply goodb_snd; [|exact M1|exact B1]; apply object_b; auto; lia.
  1: eapply goodb_snd; [|exact M1|exact B1]; apply array_b; auto; lia.
  all: eapply goodb_snd; [|exact M1|exact B1]; apply goodb_next.
Qed.

Lemma dyn_b : forall d n v r, br r < d -> mr r <= n -> 1 <= n -> goodb r (dyn_s d n v r).
Proof.
  induction d as [|d IH]; intros n v r Hl Hn H1; [lia|]. cbn [dyn_s].
  apply goodb_bind; [apply goodb_peek|]. intros t r1 _ M1 B1.
  destruct t; try (split; [discriminate|]; intros a r' E; injection E as <- <-; rewrite err_mr, br_not_ok by apply err_not_ok; lia).
  - apply goodb_bind; [|intros; apply goodb_ret]. apply object_b; [|lia|lia]. intros k m r' A C.
    apply goodb_bind; [apply IH; lia|intros; apply goodb_ret].
  - apply goodb_bind; [|intros; apply goodb_ret]. apply array_b; [|lia|lia]. intros k m r' A C.
    apply goodb_bind; [apply IH; lia|intros; apply goodb_ret].
  - apply goodb_bind; [apply string_b|intros; apply goodb_ret].
  - apply goodb_bind; [apply int_b|intros; apply goodb_ret].
  - apply goodb_bind; [apply float_b|intros; apply goodb_ret].
  - apply goodb_bind; [apply bool_b|intros; apply goodb_ret].
  - unfold parse_null. destruct (goodb_expect TNull r1) as [E1 E2]. destruct (expect_tok TNull r1) as [[t2 r2]| | | |]; cbn [bind];
      try (split; discriminate); [|contradiction]. specialize (E2 _ _ eq_refl). split; [discriminate|]. intros a r' H. injection H as <- <-. lia.
Qed.

Lemma typed_b e rank K : ptr_ranked e rank K -> forall d n t v r,
  br r * (K + 1) + rank t + 1 < d -> mr r <= n -> 1 <= n -> goodb r (typed_s d n e t v r).
Proof.
  intros [HK Hp]. induction d as [|d IH]; intros n t v r Hl Hn H1; [lia|]. cbn [typed_s].
  destruct (nth_error e t) as [jt|] eqn:Et; [|split; discriminate].
  assert (Hm : br r <= br r * (K + 1)) by nia.
  assert (Hdown : forall r' i, br r' < br r -> br r' * (K + 1) + rank i + 1 < d).
  { intros r' i Hr'. pose proof (HK i). assert (br r' * (K + 1) + (K + 1) <= br r * (K + 1)) by nia. lia. }
  destruct jt.
  - apply goodb_bind; [apply bool_b|intros; apply goodb_ret].
  - apply goodb_bind; [apply int_b|]. intros z r1 _ _ _. destruct is_int64; [apply goodb_ret|split; discriminate].
  - apply goodb_bind; [apply float_b|]. intros z r1 _ _ _. destruct is_double; [apply goodb_ret|split; discriminate].
  - apply goodb_bind; [apply string_b|intros; apply goodb_ret].
  - apply goodb_bind; [apply goodb_peek|]. intros tk r1 _ M1 B1.
    destruct (same_type tk TNull); [apply goodb_bind; [apply goodb_next|intros; apply goodb_ret]|].
    cbv zeta. pose proof (Hp _ _ _ Et) as Hr. set (p := match v with VPtr (Some p) => p | _ => dval e inner end). clearbody p.
    assert (Hm1 : br r1 * (K + 1) <= br r * (K + 1)) by (apply Nat.mul_le_mono_r; exact B1).
    destruct (IH n inner p r1) as [G1 G2]; [lia|lia|lia|].
    destruct (typed_s d n e inner p r1) as [[[p' mv] r2]| | | |]; cbn [bind]; try (split; discriminate); [|contradiction].
    specialize (G2 _ _ eq_refl). split; [discriminate|]. intros a r' H. injection H as <- <-. lia.
  - apply goodb_bind; [|intros; apply goodb_ret]. apply object_b; [|lia|lia]. intros k m r' A C.
    destruct (IH n inner (dval e inner) r') as [G1 G2]; [now apply Hdown|lia|lia|].
    destruct (typed_s d n e inner (dval e inner) r') as [[[x mv] r2]| | | |]; cbn [bind]; try (split; discriminate); [|contradiction].
    specialize (G2 _ _ eq_refl). destruct (rok r2); [destruct mv|]; (split; [discriminate|]); intros a q H; try discriminate; injection H as <- <-; lia.
  - apply goodb_bind; [|intros; apply goodb_ret]. apply array_b; [|lia|lia]. intros k m r' A C.
    destruct (IH n inner (dval e inner) r') as [G1 G2]; [now apply Hdown|lia|lia|].
    destruct (typed_s d n e inner (dval e inner) r') as [[[x mv] r2]| | | |]; cbn [bind]; try (split; discriminate); [|contradiction].
    specialize (G2 _ _ eq_refl). destruct (rok r2); [destruct mv|]; (split; [discriminate|]); intros a q H; try discriminate; injection H as <- <-; lia.
  - apply goodb_bind; [apply dyn_b; lia|intros; apply goodb_ret].
  - apply goodb_bind; [|intros; apply goodb_ret]. apply object_b; [|lia|lia]. intros k m r' A C. destruct (find_alias fs k) as [fd|].
    + destruct (IH n (f_type fd) (field_of (f_key fd) m) r') as [G1 G2]; [now apply Hdown|lia|lia|].
      destruct (typed_s d n e (f_type fd) (field_of (f_key fd) m) r') as [[[x mv] r2]| | | |]; cbn [bind]; try (split; discriminate); [|contradiction].
      specialize (G2 _ _ eq_refl). split; [discriminate|]. intros a q H. injection H as <- <-. lia.
    + apply goodb_unit. apply skip_b; lia.
Qed.
