(* ProofJson7.v - termination of skip and of the typed parsers on every input. *)
From Coq Require String. Import String.StringSyntax.
From Verif Require Import Base Dec ModelJson ModelJsonW ModelJsonT SpecJson ProofJson1 ProofJson4 ProofJson5.
Local Open Scope outcome_scope.
Local Open Scope nat_scope.

Definition mr (r : reader) : nat :=
  if rok r then S (length (rin r)) + (if same_type (rtok r) TNone then 0 else 1) else 0.

(* ends, and does not give back any input *)
Definition good {A} (r : reader) (x : outcome (A * reader)) : Prop :=
  x <> OutOfFuel /\ forall a r', x = Ok (a, r') -> mr r' <= mr r.

Lemma lex_nf r : lex_token r <> OutOfFuel.
Proof. destruct (lex_token_fine r) as [F _]. intro E. rewrite E in F. exact F. Qed.
Lemma mr_not_ok r : rok r = false -> mr r = 0.
Proof. unfold mr. intros ->. reflexivity. Qed.
Lemma mr_ok r : rok r = true -> 1 <= mr r.
Proof. unfold mr. intros ->. lia. Qed.

Lemma lex_mr r t r' : lex_token r = Ok (t, r') -> rok r = true -> rok r' = true ->
  S (length (rin r')) <= length (rin r) /\ rtok r' = rtok r.
Proof. intros E H1 H2. destruct (lex_token_fine r) as [_ F]. destruct (F _ _ E) as [T L]. specialize (L H1 H2). auto. Qed.

Lemma lex_back r t r' : lex_token r = Ok (t, r') -> rok r' = true -> rok r = true.
Proof. intros E H. eapply ev_ok_back; [|exact H]. apply rs_evolves. eapply rs_lex1; eauto. Qed.

Lemma next_good r : good r (next_tok r) /\ (forall t r', rok r = true -> next_tok r = Ok (t, r') -> mr r' < mr r).
Proof.
  unfold next_tok. destruct (same_type (rtok r) TNone) eqn:Et.
  - assert (H : forall t r', lex_token r = Ok (t, r') -> mr r' <= mr r /\ (rok r = true -> mr r' < mr r)).
    { intros t r' E. destruct (rok r') eqn:Ok'.
      - pose proof (lex_back _ _ _ E Ok') as Okr. destruct (lex_mr _ _ _ E Okr Ok') as [L T].
        unfold mr. rewrite Ok', Okr, T, Et. lia.
      - rewrite (mr_not_ok r') by assumption. split; [lia|]. intro Okr. apply mr_ok in Okr. lia. }
    split; [split; [apply lex_nf|]|]; intros; eapply H; eauto.
  - assert (H : mr (set_tok TNone r) <= mr r /\ (rok r = true -> mr (set_tok TNone r) < mr r)).
    { unfold mr. change (rok (set_tok TNone r)) with (rok r). cbn [rtok set_tok rin same_type].
      rewrite Et. destruct (rok r); split; try discriminate; lia. }
    split; [split; [discriminate|]|].
    + intros a r' E. injection E as <- <-. apply H.
    + intros a r' Hk E. injection E as <- <-. now apply H.
Qed.
Lemma peek_good r : good r (peek_tok r).
Proof.
  unfold peek_tok. destruct (same_type (rtok r) TNone) eqn:Et; [|split; [discriminate|intros a r' E; injection E as <- <-; lia]].
  pose proof (lex_nf r) as Hn. destruct (lex_token r) as [[t r1]| | | |] eqn:E; cbn [bind]; try (split; discriminate); [|contradiction].
  split; [discriminate|]. intros a r' H. injection H as <- <-.
  destruct (rok r1) eqn:Ok'.
  - pose proof (lex_back _ _ _ E Ok') as Okr. destruct (lex_mr _ _ _ E Okr Ok') as [L T].
    unfold mr. change (rok (set_tok t r1)) with (rok r1). rewrite Ok', Okr, Et. cbn [rin set_tok].
    destruct (same_type (rtok (set_tok t r1)) TNone); cbv iota; nlia.
  - rewrite mr_not_ok; [lia|]. exact Ok'.
Qed.
Lemma assert_mr t x r : mr (assert_tok t x r) <= mr r.
Proof.
  unfold assert_tok. destruct (same_type t x); [lia|]. rewrite mr_not_ok by apply err_not_ok. lia.
Qed.
Lemma err_mr c r : mr (rerror_set c r) = 0.
Proof. apply mr_not_ok, err_not_ok. Qed.
Lemma expect_good x r : good r (expect_tok x r).
Proof.
  unfold expect_tok. destruct (next_good r) as [[N1 N2] _]. destruct (next_tok r) as [[t r1]| | | |]; cbn [bind];
    try (split; discriminate); [|contradiction].
  specialize (N2 _ _ eq_refl). destruct (same_type t x); (split; [discriminate|]); intros a r' H; injection H as <- <-; auto.
  pose proof (assert_mr t x r1). lia.
Qed.
Lemma expect_bind_good {A} x r (f : token -> reader -> outcome (A * reader)) :
  (forall t r1, mr r1 <= mr r -> good r1 (f t r1)) -> good r (do (t, r1) <- expect_tok x r; f t r1).
Proof.
  intro Hf. destruct (expect_good x r) as [N1 N2]. destruct (expect_tok x r) as [[t r1]| | | |]; cbn [bind];
    try (split; discriminate); [|contradiction].
  specialize (N2 _ _ eq_refl). destruct (Hf t r1 N2) as [G1 G2]. split; [exact G1|]. intros a r' H.
  specialize (G2 _ _ H). lia.
Qed.
Lemma good_ret {A} (a : A) r : good r (Ok (a, r)).
Proof. split; [discriminate|]. intros b r' H. injection H as <- <-. lia. Qed.
Lemma bool_good r : good r (parse_bool r).
Proof.
  apply expect_bind_good. intros t r1 _. destruct t; cbn; try (split; discriminate). apply good_ret.
Qed.
Lemma stol_nf s : stol s <> OutOfFuel.
Proof.
  unfold stol. destruct (match s with [] => _ | _ => _ end) as [neg ds]. destruct ds; [discriminate|].
  cbv zeta. destruct (_ && _); discriminate.
Qed.
Lemma stod_nf s : stod s <> OutOfFuel.
Proof.
  unfold stod. destruct s as [|c s]; [discriminate|]. cbv zeta.
  destruct (if (c =? 45)%N then s else c :: s) as [|d m]; [discriminate|].
  destruct (isdigit d); [discriminate|]. destruct m; [discriminate|]. destruct (_ && _); discriminate.
Qed.
Lemma int_good r : good r (parse_int r).
Proof.
  apply expect_bind_good. intros t r1 _. destruct t; cbn [as_int bind]; try (split; discriminate).
  pose proof (stol_nf (rbuf r1)). destruct (stol (rbuf r1)); cbn [bind]; try (split; discriminate); [apply good_ret|contradiction].
Qed.
Lemma string_good r : good r (parse_string r).
Proof. apply expect_bind_good. intros t r1 _. destruct t; cbn; try (split; discriminate). apply good_ret. Qed.
Lemma float_good r : good r (parse_float r).
Proof.
  unfold parse_float. destruct (next_good r) as [[N1 N2] _]. destruct (next_tok r) as [[t r1]| | | |]; cbn [bind];
    try (split; discriminate); [|contradiction]. specialize (N2 _ _ eq_refl). cbv zeta.
  destruct t; cbn [as_float bind same_type assert_tok]; try (split; discriminate).
  change (assert_tok TFloat TFloat r1) with r1.
  pose proof (stod_nf (rbuf r1)). destruct (stod (rbuf r1)); cbn [bind]; try (split; discriminate); [|contradiction].
  split; [discriminate|]. intros b r' E. injection E as <- <-. exact N2.
Qed.
Lemma null_good r : parse_null r <> OutOfFuel /\ forall r', parse_null r = Ok r' -> mr r' <= mr r.
Proof.
  unfold parse_null. destruct (expect_good TNull r) as [N1 N2]. destruct (expect_tok TNull r) as [[t r1]| | | |];
    cbn [bind]; try (split; discriminate); [|contradiction].
  specialize (N2 _ _ eq_refl). split; [discriminate|]. intros r' H. injection H as <-. exact N2.
Qed.

Lemma object_loop_good {S : Type} (fn : str -> S -> reader -> outcome (S * reader)) M :
  (forall k s r, mr r <= M -> good r (fn k s r)) ->
  forall fuel s r, mr r <= M -> mr r < fuel -> good r (object_loop fuel fn s r).
Proof.
  intro Hf. induction fuel as [|f IH]; intros s r HM Hl; [lia|]. cbn [object_loop].
  destruct (rok r) eqn:Okr; [|apply good_ret].
  apply expect_bind_good. intros t1 r1 L1. destruct t1; cbn [as_string bind]; try (split; discriminate).
  apply expect_bind_good. intros t2 r2 L2.
  destruct (Hf (rbuf r2) s r2) as [G1 G2]; [lia|].
  destruct (fn (rbuf r2) s r2) as [[s1 r3]| | | |]; cbn [bind]; try (split; discriminate); [|contradiction].
  specialize (G2 _ _ eq_refl).
  destruct (next_good r3) as [[N1 N2] N3]. destruct (next_tok r3) as [[t4 r4]| | | |]; cbn [bind];
    try (split; discriminate); [|contradiction].
  specialize (N2 _ _ eq_refl).
  assert (L4 : mr r4 < mr r).
  { destruct (rok r3) eqn:Ok3; [pose proof (N3 _ _ eq_refl eq_refl); lia|].
    rewrite (mr_not_ok _ Ok3) in N2. pose proof (mr_ok _ Okr). lia. }
  destruct (same_type _ _).
  { split; [discriminate|]. intros b r' H. injection H as <- <-. lia. }
  pose proof (assert_mr t4 TSep r4) as La.
  destruct (IH s1 (assert_tok t4 TSep r4)) as [I1 I2]; [lia|lia|].
  split; [exact I1|]. intros b r' H. specialize (I2 _ _ H). lia.
Qed.
Lemma array_loop_good {S : Type} (fn : nat -> S -> reader -> outcome (S * reader)) M :
  (forall k s r, mr r <= M -> good r (fn k s r)) ->
  forall fuel i s r, mr r <= M -> mr r < fuel -> good r (array_loop fuel fn i s r).
Proof.
  intro Hf. induction fuel as [|f IH]; intros i s r HM Hl; [lia|]. cbn [array_loop].
  destruct (rok r) eqn:Okr; [|apply good_ret].
  destruct (Hf i s r) as [G1 G2]; [lia|].
  destruct (fn i s r) as [[s1 r3]| | | |]; cbn [bind]; try (split; discriminate); [|contradiction].
  specialize (G2 _ _ eq_refl).
  destruct (next_good r3) as [[N1 N2] N3]. destruct (next_tok r3) as [[t4 r4]| | | |]; cbn [bind];
    try (split; discriminate); [|contradiction].
  specialize (N2 _ _ eq_refl).
  assert (L4 : mr r4 < mr r).
  { destruct (rok r3) eqn:Ok3; [pose proof (N3 _ _ eq_refl eq_refl); lia|].
    rewrite (mr_not_ok _ Ok3) in N2. pose proof (mr_ok _ Okr). lia. }
  destruct (same_type _ _).
  { split; [discriminate|]. intros b r' H. injection H as <- <-. lia. }
  pose proof (assert_mr t4 TSep r4) as La.
  destruct (IH (Datatypes.S i) s1 (assert_tok t4 TSep r4)) as [I1 I2]; [lia|lia|].
  split; [exact I1|]. intros b r' H. specialize (I2 _ _ H). lia.
Qed.

(* the callback only ever sees readers with strictly less input *)
Lemma object_good {S : Type} (fn : str -> S -> reader -> outcome (S * reader)) fuel s r :
  (forall k s' r', mr r' < mr r -> good r' (fn k s' r')) ->
  mr r <= fuel -> 1 <= fuel -> good r (parse_object fuel fn s r).
Proof.
  intros Hf H1 H2. unfold parse_object. destruct (next_good r) as [[N1 N2] N3].
  destruct (next_tok r) as [[t r1]| | | |]; cbn [bind]; try (split; discriminate); [|contradiction].
  specialize (N2 _ _ eq_refl). destruct (same_type t TNull).
  { split; [discriminate|]. intros b r' H. injection H as <- <-. lia. }
  pose proof (assert_mr t TObjS r1) as La. set (ra := assert_tok t TObjS r1) in *. clearbody ra.
  destruct (peek_good ra) as [P1 P2]. destruct (peek_tok ra) as [[t2 r2]| | | |]; cbn [bind];
    try (split; discriminate); [|contradiction]. specialize (P2 _ _ eq_refl).
  destruct (same_type t2 TObjE).
  { destruct (expect_good TObjE r2) as [E1 E2]. destruct (expect_tok TObjE r2) as [[t3 r3]| | | |]; cbn [bind];
      try (split; discriminate); [|contradiction]. specialize (E2 _ _ eq_refl).
    split; [discriminate|]. intros b r' H. injection H as <- <-. lia. }
  destruct (rok r) eqn:Okr.
  - specialize (N3 _ _ eq_refl eq_refl). pose proof (mr_ok _ Okr).
    destruct (object_loop_good fn (mr r - 1)) with (fuel := fuel) (s := s) (r := r2) as [G1 G2]; [|lia|lia|].
    { intros k s' r' Hr'. apply Hf. lia. }
    split; [exact G1|]. intros b r' H'. specialize (G2 _ _ H'). lia.
  - rewrite (mr_not_ok _ Okr) in N2. assert (Ok2 : rok r2 = false).
    { destruct (rok r2) eqn:E; auto. apply mr_ok in E. lia. }
    destruct fuel as [|f]; [lia|]. cbn [object_loop]. rewrite Ok2.
    split; [discriminate|]. intros b r' H. injection H as <- <-. lia.
Qed.
Lemma array_good {S : Type} (fn : nat -> S -> reader -> outcome (S * reader)) fuel s r :
  (forall k s' r', mr r' < mr r -> good r' (fn k s' r')) ->
  mr r <= fuel -> 1 <= fuel -> good r (parse_array fuel fn s r).
Proof.
  intros Hf H1 H2. unfold parse_array. destruct (next_good r) as [[N1 N2] N3].
  destruct (next_tok r) as [[t r1]| | | |]; cbn [bind]; try (split; discriminate); [|contradiction].
  specialize (N2 _ _ eq_refl). destruct (same_type t TNull).
  { split; [discriminate|]. intros b r' H. injection H as <- <-. lia. }
  pose proof (assert_mr t TArrS r1) as La. set (ra := assert_tok t TArrS r1) in *. clearbody ra.
  destruct (peek_good ra) as [P1 P2]. destruct (peek_tok ra) as [[t2 r2]| | | |]; cbn [bind];
    try (split; discriminate); [|contradiction]. specialize (P2 _ _ eq_refl).
  destruct (same_type t2 TArrE).
  { destruct (expect_good TArrE r2) as [E1 E2]. destruct (expect_tok TArrE r2) as [[t3 r3]| | | |]; cbn [bind];
      try (split; discriminate); [|contradiction]. specialize (E2 _ _ eq_refl).
    split; [discriminate|]. intros b r' H. injection H as <- <-. lia. }
  destruct (rok r) eqn:Okr.
  - specialize (N3 _ _ eq_refl eq_refl). pose proof (mr_ok _ Okr).
    destruct (array_loop_good fn (mr r - 1)) with (fuel := fuel) (i := 0) (s := s) (r := r2) as [G1 G2]; [|lia|lia|].
    { intros k s' r' Hr'. apply Hf. lia. }
    split; [exact G1|]. intros b r' H'. specialize (G2 _ _ H'). lia.
  - rewrite (mr_not_ok _ Okr) in N2. assert (Ok2 : rok r2 = false).
    { destruct (rok r2) eqn:E; auto. apply mr_ok in E. lia. }
    destruct fuel as [|f]; [lia|]. cbn [array_loop]. rewrite Ok2.
    split; [discriminate|]. intros b r' H. injection H as <- <-. lia.
Qed.

Definition good1 (r : reader) (x : outcome reader) : Prop :=
  x <> OutOfFuel /\ forall r', x = Ok r' -> mr r' <= mr r.

Lemma good_unit r (x : outcome reader) : good1 r x -> good r (do r' <- x; Ok (tt, r')).
Proof.
  intros [G1 G2]. destruct x; cbn [bind]; try (split; discriminate); [|contradiction].
  split; [discriminate|]. intros b r' H. injection H as <- <-. auto.
Qed.
Lemma good_snd {A} r r1 (x : outcome (A * reader)) : good r1 x -> mr r1 <= mr r -> good1 r (do (_, r') <- x; Ok r').
Proof.
  intros [G1 G2] L. destruct x as [[a r2]| | | |]; cbn [bind]; try (split; discriminate); [|contradiction].
  specialize (G2 _ _ eq_refl). split; [discriminate|]. intros r' H. injection H as <-. lia.
Qed.

Lemma skip_good : forall fuel r, mr r < fuel -> good1 r (skip fuel r).
Proof.
  induction fuel as [|f IH]; intros r Hl; [lia|]. cbn [skip].
  destruct (peek_good r) as [P1 P2]. destruct (peek_tok r) as [[t r1]| | | |]; cbn [bind];
    try (split; discriminate); [|contradiction]. specialize (P2 _ _ eq_refl).
  destruct (rok r1) eqn:Ok1; cbn [negb].
  2:{ split; [discriminate|]. intros r' H. injection H as <-. lia. }
  pose proof (mr_ok _ Ok1).
  assert (Hc : forall r', mr r' < mr r1 -> good r' (do q <- skip f r'; Ok (tt, q))).
  { intros r' Hr'. apply good_unit, IH. lia. }
  destruct t; try (split; discriminate).
  1: eapply good_snd; [|exact P2]; apply object_good; auto; lia.
  1: eapply good_snd; [|exact P2]; apply array_good; auto; lia.
  all: eapply good_snd; [|exact P2]; apply next_good.
Qed.

Lemma good_map {A B} r r1 (x : outcome (A * reader)) (g : A -> B) :
  good r1 x -> mr r1 <= mr r -> good r (do (a, r') <- x; Ok (g a, r')).
Proof.
  intros [G1 G2] L. destruct x as [[a r2]| | | |]; cbn [bind]; try (split; discriminate); [|contradiction].
  specialize (G2 _ _ eq_refl). split; [discriminate|]. intros b r' H. injection H as <- <-. lia.
Qed.

Lemma dyn_good : forall fuel v r, mr r + 1 < fuel -> good r (parse_dyn fuel v r).
Proof.
  induction fuel as [|f IH]; intros v r Hl; [lia|]. cbn [parse_dyn].
  destruct (peek_good r) as [P1 P2]. destruct (peek_tok r) as [[t r1]| | | |]; cbn [bind];
    try (split; discriminate); [|contradiction]. specialize (P2 _ _ eq_refl).
  destruct t.
  all: try (split; [discriminate|]; intros a r' E; injection E as <- <-; rewrite err_mr; lia).
  - eapply good_map; [|exact P2]. apply object_good; [|lia|lia]. intros k m r' Hr'.
    apply (good_map r' r' _ (fun x => if ahas k m then m else m ++ [(k, x)])); [apply IH|]; lia.
  - eapply good_map; [|exact P2]. apply array_good; [|lia|lia]. intros k m r' Hr'.
    apply (good_map r' r' _ (fun x => m ++ [x])); [apply IH|]; lia.
  - eapply good_map; [apply string_good|exact P2].
  - eapply good_map; [apply int_good|exact P2].
  - eapply good_map; [apply float_good|exact P2].
  - eapply good_map; [apply bool_good|exact P2].
  - destruct (null_good r1) as [N1 N2]. destruct (parse_null r1) as [r2| | | |]; cbn [bind]; try (split; discriminate);
      [|contradiction]. specialize (N2 _ eq_refl). split; [discriminate|]. intros a r' H. injection H as <- <-. lia.
Qed.

(* pointer chains are finite: rank decreases along them and is at most K *)
Definition ptr_ranked (e : env) (rank : nat -> nat) (K : nat) : Prop :=
  (forall t, rank t <= K) /\
  (forall t sm i, nth_error e t = Some (DPtr sm i) -> rank i < rank t).

Lemma typed_good e rank K : ptr_ranked e rank K -> forall fuel t v r,
  mr r * (K + 1) + rank t + 2 < fuel -> good r (parse_t fuel e t v r).
Proof.
  intros [HK Hp]. induction fuel as [|f IH]; intros t v r Hl; [lia|]. cbn [parse_t].
  destruct (nth_error e t) as [jt|] eqn:Et; [|split; discriminate].
  assert (Hm : mr r <= mr r * (K + 1)) by nia.
  assert (Hdown : forall r' i, mr r' < mr r -> mr r' * (K + 1) + rank i + 2 < f).
  { intros r' i Hr'. pose proof (HK i). assert (mr r' * (K + 1) + (K + 1) <= mr r * (K + 1)) by nia. lia. }
  destruct jt.
  - apply (good_map r r (parse_bool r) (fun b => (VBool b, false))); [apply bool_good|lia].
  - destruct (int_good r) as [G1 G2]. destruct (parse_int r) as [[z r1]| | | |]; cbn [bind]; try (split; discriminate); [|contradiction].
    destruct is_int64; [|split; discriminate]. specialize (G2 _ _ eq_refl).
    split; [discriminate|]. intros a r' H. injection H as <- <-. lia.
  - destruct (float_good r) as [G1 G2]. destruct (parse_float r) as [[z r1]| | | |]; cbn [bind]; try (split; discriminate); [|contradiction].
    destruct is_double; [|split; discriminate]. specialize (G2 _ _ eq_refl).
    split; [discriminate|]. intros a r' H. injection H as <- <-. lia.
  - apply (good_map r r (parse_string r) (fun b => (VStr b, false))); [apply string_good|lia].
  - destruct (peek_good r) as [P1 P2]. destruct (peek_tok r) as [[tk r1]| | | |]; cbn [bind];
      try (split; discriminate); [|contradiction]. specialize (P2 _ _ eq_refl).
    destruct (same_type tk TNull).
    { destruct (next_good r1) as [[N1 N2] _]. destruct (next_tok r1) as [[t2 r2]| | | |]; cbn [bind];
        try (split; discriminate); [|contradiction]. specialize (N2 _ _ eq_refl).
      split; [discriminate|]. intros a r' H. injection H as <- <-. lia. }
    cbv zeta. pose proof (Hp _ _ _ Et) as Hr.
    set (p := match v with VPtr (Some p) => p | _ => dval e inner end). clearbody p.
    assert (Hm1 : mr r1 * (K + 1) <= mr r * (K + 1)) by (apply Nat.mul_le_mono_r; exact P2).
    destruct (IH inner p r1) as [G1 G2]; [lia|].
    destruct (parse_t f e inner p r1) as [[[p' mv] r2]| | | |]; cbn [bind]; try (split; discriminate); [|contradiction].
    specialize (G2 _ _ eq_refl). split; [discriminate|]. intros a r' H. injection H as <- <-. lia.
  - apply (good_map r r _ (fun m => (VMap m, false))); [|lia].
    apply object_good; [|lia|lia]. intros k m r' Hr'.
    destruct (IH inner (dval e inner) r') as [G1 G2]; [now apply Hdown|].
    destruct (parse_t f e inner (dval e inner) r') as [[[x mv] r2]| | | |]; cbn [bind]; try (split; discriminate); [|contradiction].
    specialize (G2 _ _ eq_refl). destruct (rok r2); [destruct mv|]; (split; [discriminate|]); intros a q H; try discriminate; injection H as <- <-; lia.
  - apply (good_map r r _ (fun m => (VList m, false))); [|lia].
    apply array_good; [|lia|lia]. intros k m r' Hr'.
    destruct (IH inner (dval e inner) r') as [G1 G2]; [now apply Hdown|].
    destruct (parse_t f e inner (dval e inner) r') as [[[x mv] r2]| | | |]; cbn [bind]; try (split; discriminate); [|contradiction].
    specialize (G2 _ _ eq_refl). destruct (rok r2); [destruct mv|]; (split; [discriminate|]); intros a q H; try discriminate; injection H as <- <-; lia.
  - apply (good_map r r _ (fun m => (m, false))); [|lia]. apply dyn_good. lia.
  - apply (good_map r r _ (fun m => (VObj m, false))); [|lia].
    apply object_good; [|lia|lia]. intros k m r' Hr'. destruct (find_alias fs k) as [fd|].
    + destruct (IH (f_type fd) (field_of (f_key fd) m) r') as [G1 G2]; [now apply Hdown|].
      destruct (parse_t f e (f_type fd) (field_of (f_key fd) m) r') as [[[x mv] r2]| | | |]; cbn [bind]; try (split; discriminate); [|contradiction].
      specialize (G2 _ _ eq_refl). split; [discriminate|]. intros a q H. injection H as <- <-. lia.
    + destruct (skip_good f r') as [G1 G2]; [lia|].
      destruct (skip f r') as [r2| | | |]; cbn [bind]; try (split; discriminate); [|contradiction].
      specialize (G2 _ eq_refl). split; [discriminate|]. intros a q H. injection H as <- <-. lia.
Qed.

(* building the parser: the cache grows at every level *)
Definition fresh (e : env) (cache : list nat) : nat :=
  length (filter (fun i => negb (existsb (Nat.eqb i) cache)) (seq 0 (length e))).

Lemma filter_le {A} (f g : A -> bool) l : (forall x, f x = true -> g x = true) ->
  length (filter f l) <= length (filter g l).
Proof.
  intro H. induction l as [|x l IH]; cbn; auto. destruct (f x) eqn:E; [rewrite (H x E); cbn; lia|].
  destruct (g x); cbn; lia.
Qed.
Lemma filter_lt {A} (f g : A -> bool) l x : (forall x, f x = true -> g x = true) -> In x l ->
  f x = false -> g x = true -> length (filter f l) < length (filter g l).
Proof.
  intros H. induction l as [|y l IH]; cbn; [tauto|]. intros [->|Hi] Hf Hg.
  - rewrite Hf, Hg. cbn. pose proof (filter_le f g l H). lia.
  - specialize (IH Hi Hf Hg). destruct (f y) eqn:E; [rewrite (H y E); cbn; lia|]. destruct (g y); cbn; lia.
Qed.
Lemma fresh_cons e t c : nth_error e t <> None -> existsb (Nat.eqb t) c = false -> fresh e (t :: c) < fresh e c.
Proof.
  intros Ht Hc. unfold fresh. apply (filter_lt _ _ _ t).
  - intro x. cbn. rewrite !negb_true_iff, orb_false_iff. tauto.
  - apply in_seq. apply nth_error_Some in Ht. lia.
  - cbn. rewrite Nat.eqb_refl. reflexivity.
  - rewrite Hc. reflexivity.
Qed.
Lemma fresh_incl e c c' : incl c c' -> fresh e c' <= fresh e c.
Proof.
  intro H. apply filter_le. intros x. rewrite !negb_true_iff. intro Hx.
  destruct (existsb (Nat.eqb x) c) eqn:E; auto. apply existsb_exists in E as (y & Hy & E).
  apply Nat.eqb_eq in E. subst y. assert (existsb (Nat.eqb x) c' = true).
  { apply existsb_exists. exists x. rewrite Nat.eqb_refl. auto. }
  congruence.
Qed.

Definition init_ok (c : list nat) (x : outcome (list nat)) : Prop :=
  x <> OutOfFuel /\ forall c', x = Ok c' -> incl c c'.

Lemma init_fold {B : Type} e (f : B -> list nat -> outcome (list nat)) F :
  (forall b c, fresh e c < F -> init_ok c (f b c)) ->
  forall l c0 x, (forall c, x = Ok c -> incl c0 c) -> x <> OutOfFuel -> fresh e c0 < F ->
  init_ok c0 (fold_left (fun acc b => do c <- acc; f b c) l x).
Proof.
  intros Hf. induction l as [|b l IH]; intros c0 x Hx Hn HF; cbn [fold_left].
  - split; auto.
  - apply IH; auto.
    + intros c H. binv H. specialize (Hx _ K). destruct (Hf b a) as [_ G].
      { pose proof (fresh_incl e _ _ Hx). lia. }
      specialize (G _ H). eapply incl_tran; eauto.
    + destruct x as [c| | | |]; cbn [bind]; try discriminate; [|contradiction].
      apply Hf. pose proof (fresh_incl e _ _ (Hx _ eq_refl)). lia.
Qed.

Lemma init_parser_good e : forall fuel t c, fresh e c < fuel -> init_ok c (init_parser fuel e t c).
Proof.
  induction fuel as [|f IH]; intros t c Hl; [lia|]. cbn [init_parser].
  destruct (existsb (Nat.eqb t) c) eqn:Ec.
  { split; [discriminate|]. intros c' H. injection H as <-. apply incl_refl. }
  cbv zeta. destruct (nth_error e t) as [jt|] eqn:Et; [|split; discriminate].
  assert (Hfr : fresh e (t :: c) < f).
  { assert (fresh e (t :: c) < fresh e c) by (apply fresh_cons; [congruence|exact Ec]). lia. }
  assert (Hone : forall i, init_ok c (init_parser f e i (t :: c))).
  { intro i. destruct (IH i (t :: c) Hfr) as [I1 I2]. split; [exact I1|]. intros c' H.
    specialize (I2 _ H). intros x Hx. apply I2. now right. }
  assert (Hleaf : init_ok c (Ok (t :: c))).
  { split; [discriminate|]. intros c' H. injection H as <-. intros x Hx. now right. }
  destruct jt; auto. destruct (dup_alias (obj_fields fs)); [split; discriminate|].
  destruct (init_fold e (fun fd c => init_parser f e (f_type fd) c) f) with (l := obj_fields fs) (c0 := t :: c) (x := Ok (t :: c)) as [I1 I2].
  - intros b c' Hc'. apply IH. exact Hc'.
  - intros c' H. injection H as <-. apply incl_refl.
  - discriminate.
  - exact Hfr.
  - split; [exact I1|]. intros c' H. specialize (I2 _ H). intros x Hx. apply I2. now right.
Qed.
Lemma fresh_nil e : fresh e [] = length e.
Proof.
  unfold fresh.
  induction (length e) as [|n IH]; [reflexivity|].
  rewrite seq_S, filter_app, app_length, IH. cbn. lia.
Qed.

Lemma parse_text_ends fuel o e t v s rank K : ptr_ranked e rank K ->
  length e + (length s + 1) * (K + 1) + rank t + 2 < fuel ->
  parse_text fuel o e t v s <> OutOfFuel.
Proof.
  intros Hr Hf. unfold parse_text.
  destruct (init_parser_good e fuel t []) as [I1 _]; [rewrite fresh_nil; lia|].
  destruct (init_parser fuel e t []) as [c| | | |]; cbn [bind]; try discriminate; [|contradiction].
  destruct (typed_good e rank K Hr fuel t v (reader_init o s)) as [G1 _].
  { unfold mr. cbn [rok reader_init rerr rfail negb rin rtok same_type]. replace (S (length s) + 0) with (length s + 1) by lia. lia. }
  destruct (parse_t fuel e t v (reader_init o s)) as [[[v' mv] r]| | | |]; cbn [bind]; try discriminate. contradiction.
Qed.
