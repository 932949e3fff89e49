(* PropJsonNoUB.v - C38 for whole documents: where undefined behaviour can come from. *)
From Coq Require String. Import String.StringSyntax.
From Verif Require Import Base ModelJson ModelJsonT SpecJson ProofJson1 ProofJson4 ProofJson5 PropJsonTok PropJsonNl.
Local Open Scope N_scope.
Local Open Scope outcome_scope.

(* from here on the tokenizer is well defined *)
Definition calm (r : reader) : Prop := forall r', rsteps r r' -> lex_token r' <> UB.

Lemma calm_rs r r' : calm r -> rsteps r r' -> calm r'.
Proof. intros C S r2 S2. apply C. eapply rs_trans; eauto. Qed.
Lemma calm_next r : calm r -> next_tok r <> UB.
Proof. intro C. unfold next_tok. destruct (same_type (rtok r) TNone); [apply C, rs_refl|discriminate]. Qed.
Lemma calm_peek r : calm r -> peek_tok r <> UB.
Proof.
  intro C. unfold peek_tok. destruct (same_type (rtok r) TNone); [|discriminate].
  pose proof (C r (rs_refl r)). destruct (lex_token r) as [[]| | | |]; cbn [bind]; congruence.
Qed.
Lemma calm_expect x r : calm r -> expect_tok x r <> UB.
Proof.
  intro C. unfold expect_tok. pose proof (calm_next r C). destruct (next_tok r) as [[t r1]| | | |]; cbn [bind]; try congruence.
  destruct (same_type t x); discriminate.
Qed.
Lemma bind_UB {A B} (x : outcome A) (f : A -> outcome B) :
  x <> UB -> (forall a, x = Ok a -> f a <> UB) -> bind x f <> UB.
Proof. destruct x; cbn; auto; congruence. Qed.
Lemma stol_UB s : stol s <> UB.
Proof. unfold stol. destruct s as [|c s]; cbv zeta; repeat (destruct (_ =? _)); try destruct s; try discriminate; destruct (_ && _)%bool; discriminate. Qed.
Lemma stod_UB s : stod s <> UB.
Proof.
  unfold stod. destruct s as [|c s]; [discriminate|]. cbv zeta. destruct (if c =? 45 then s else c :: s) as [|d m]; [discriminate|].
  destruct (isdigit d); [discriminate|]. destruct m; [discriminate|]. destruct (_ && _)%bool; discriminate.
Qed.

Lemma calm_null r : calm r -> parse_null r <> UB.
Proof. intro C. unfold parse_null. apply bind_UB; [now apply calm_expect|]. intros [t r1] _. discriminate. Qed.
Lemma calm_bool r : calm r -> parse_bool r <> UB.
Proof.
  intro C. unfold parse_bool. apply bind_UB; [now apply calm_expect|]. intros [t r1] _. apply bind_UB; [|discriminate].
  destruct t; discriminate.
Qed.
Lemma calm_int r : calm r -> parse_int r <> UB.
Proof.
  intro C. unfold parse_int. apply bind_UB; [now apply calm_expect|]. intros [t r1] _. apply bind_UB; [|discriminate].
  destruct t; try discriminate. apply stol_UB.
Qed.
Lemma calm_float r : calm r -> parse_float r <> UB.
Proof.
  intro C. unfold parse_float. apply bind_UB; [now apply calm_next|]. intros [t r1] _. apply bind_UB; [|discriminate].
  destruct t; try discriminate. cbn [as_float]. apply stod_UB.
Qed.
Lemma calm_string r : calm r -> parse_string r <> UB.
Proof.
  intro C. unfold parse_string. apply bind_UB; [now apply calm_expect|]. intros [t r1] _. apply bind_UB; [|discriminate].
  destruct t; discriminate.
Qed.

Section Loops.
  Context {St : Type}.
  Lemma calm_object_loop (fn : str -> St -> reader -> outcome (St * reader)) r0 :
    (forall k s r s' r', fn k s r = Ok (s', r') -> rsteps r r') ->
    (forall k s r, rsteps r0 r -> fn k s r <> UB) ->
    calm r0 -> forall fuel s r, rsteps r0 r -> object_loop fuel fn s r <> UB.
  Proof.
    intros Hs Hn C. induction fuel as [|f IH]; intros s r R; cbn [object_loop]; [discriminate|].
    destruct (rok r); [|discriminate].
    apply bind_UB; [apply calm_expect, (calm_rs r0); auto|]. intros [t r1] E1. pose proof (rs_trans _ _ _ R (rs_expect _ _ _ _ E1)) as R1.
    apply bind_UB; [destruct t; discriminate|]. intros _ _.
    apply bind_UB; [apply calm_expect, (calm_rs r0); auto|]. intros [t2 r2] E2. pose proof (rs_trans _ _ _ R1 (rs_expect _ _ _ _ E2)) as R2.
    apply bind_UB; [now apply Hn|]. intros [s1 r3] E3. pose proof (rs_trans _ _ _ R2 (Hs _ _ _ _ _ E3)) as R3.
    apply bind_UB; [apply calm_next, (calm_rs r0); auto|]. intros [t4 r4] E4. pose proof (rs_trans _ _ _ R3 (rs_next _ _ _ E4)) as R4.
    destruct (same_type t4 TObjE); [discriminate|]. apply IH. eapply rs_trans; [exact R4|apply rs_assert].
  Qed.
  Lemma calm_array_loop (fn : nat -> St -> reader -> outcome (St * reader)) r0 :
    (forall k s r s' r', fn k s r = Ok (s', r') -> rsteps r r') ->
    (forall k s r, rsteps r0 r -> fn k s r <> UB) ->
    calm r0 -> forall fuel i s r, rsteps r0 r -> array_loop fuel fn i s r <> UB.
  Proof.
    intros Hs Hn C. induction fuel as [|f IH]; intros i s r R; cbn [array_loop]; [discriminate|].
    destruct (rok r); [|discriminate].
    apply bind_UB; [now apply Hn|]. intros [s1 r3] E3. pose proof (rs_trans _ _ _ R (Hs _ _ _ _ _ E3)) as R3.
    apply bind_UB; [apply calm_next, (calm_rs r0); auto|]. intros [t4 r4] E4. pose proof (rs_trans _ _ _ R3 (rs_next _ _ _ E4)) as R4.
    destruct (same_type t4 TArrE); [discriminate|]. apply IH. eapply rs_trans; [exact R4|apply rs_assert].
  Qed.
  Lemma calm_object (fn : str -> St -> reader -> outcome (St * reader)) fuel s r0 :
    (forall k s r s' r', fn k s r = Ok (s', r') -> rsteps r r') ->
    (forall k s r, rsteps r0 r -> fn k s r <> UB) ->
    calm r0 -> parse_object fuel fn s r0 <> UB.
  Proof.
    intros Hs Hn C. unfold parse_object.
    apply bind_UB; [now apply calm_next|]. intros [t r1] E1. pose proof (rs_next _ _ _ E1) as R1. destruct (same_type t TNull); [discriminate|].
    pose proof (rs_trans _ _ _ R1 (rs_assert t TObjS r1)) as R1'.
    apply bind_UB; [apply calm_peek, (calm_rs r0); auto|]. intros [t2 r2] E2. pose proof (rs_trans _ _ _ R1' (rs_peek _ _ _ E2)) as R2.
    destruct (same_type t2 TObjE); [|apply (calm_object_loop fn r0); auto].
    apply bind_UB; [apply calm_expect, (calm_rs r0); auto|]. intros [t3 r3] _. discriminate.
  Qed.
  Lemma calm_array (fn : nat -> St -> reader -> outcome (St * reader)) fuel s r0 :
    (forall k s r s' r', fn k s r = Ok (s', r') -> rsteps r r') ->
    (forall k s r, rsteps r0 r -> fn k s r <> UB) ->
    calm r0 -> parse_array fuel fn s r0 <> UB.
  Proof.
    intros Hs Hn C. unfold parse_array.
    apply bind_UB; [now apply calm_next|]. intros [t r1] E1. pose proof (rs_next _ _ _ E1) as R1. destruct (same_type t TNull); [discriminate|].
    pose proof (rs_trans _ _ _ R1 (rs_assert t TArrS r1)) as R1'.
    apply bind_UB; [apply calm_peek, (calm_rs r0); auto|]. intros [t2 r2] E2. pose proof (rs_trans _ _ _ R1' (rs_peek _ _ _ E2)) as R2.
    destruct (same_type t2 TArrE); [|apply (calm_array_loop fn r0); auto].
    apply bind_UB; [apply calm_expect, (calm_rs r0); auto|]. intros [t3 r3] _. discriminate.
  Qed.
End Loops.

Lemma calm_dyn : forall fuel v r, calm r -> parse_dyn fuel v r <> UB.
Proof.
  induction fuel as [|f IH]; intros v r C; cbn [parse_dyn]; [discriminate|].
  apply bind_UB; [now apply calm_peek|]. intros [t r1] E. pose proof (calm_rs _ _ C (rs_peek _ _ _ E)) as C1.
  destruct t; try discriminate.
  - apply bind_UB; [|intros []; discriminate]. first [apply calm_object|apply calm_array]; auto.
    + intros k s ra s' rb H. binv H. destruct a as [x rc]. injection H as <- <-. eapply rs_dyn; eauto.
    + intros k s ra R. apply bind_UB; [apply IH, (calm_rs r1); auto|]. intros []; discriminate.
  - apply bind_UB; [|intros []; discriminate]. first [apply calm_array|apply calm_object]; auto.
    + intros k s ra s' rb H. binv H. destruct a as [x rc]. injection H as <- <-. eapply rs_dyn; eauto.
    + intros k s ra R. apply bind_UB; [apply IH, (calm_rs r1); auto|]. intros []; discriminate.
  - apply bind_UB; [now apply calm_string|]. intros []; discriminate.
  - apply bind_UB; [now apply calm_int|]. intros []; discriminate.
  - apply bind_UB; [now apply calm_float|]. intros []; discriminate.
  - apply bind_UB; [now apply calm_bool|]. intros []; discriminate.
  - apply bind_UB; [now apply calm_null|]. discriminate.
Qed.

(* there is no class among the types, or skipping is well defined from here on *)
Definition no_skip (e : env) (r : reader) : Prop :=
  (forall t fs c, nth_error e t <> Some (DObj fs c)) \/ (forall fuel r', rsteps r r' -> skip fuel r' <> UB).
Lemma no_skip_rs e r r' : no_skip e r -> rsteps r r' -> no_skip e r'.
Proof. intros [H|H] R; [now left|]. right. intros f r2 R2. apply H. eapply rs_trans; eauto. Qed.

Lemma calm_typed e : forall fuel t v r, calm r -> no_skip e r -> parse_t fuel e t v r <> UB.
Proof.
  induction fuel as [|f IH]; intros t v r C K; cbn [parse_t]; [discriminate|].
  destruct (nth_error e t) as [d|] eqn:Ed; [|discriminate]. destruct d as [|is64|dbl| |smart i|i|i| |fs c].
  - apply bind_UB; [now apply calm_bool|]. intros []; discriminate.
  - apply bind_UB; [now apply calm_int|]. intros []; destruct is64; discriminate.
  - apply bind_UB; [now apply calm_float|]. intros []; destruct dbl; discriminate.
  - apply bind_UB; [now apply calm_string|]. intros []; discriminate.
  - apply bind_UB; [now apply calm_peek|]. intros [tk r1] E. pose proof (calm_rs _ _ C (rs_peek _ _ _ E)) as C1.
    pose proof (no_skip_rs _ _ _ K (rs_peek _ _ _ E)) as K1. destruct (same_type tk TNull).
    + apply bind_UB; [now apply calm_next|]. intros []; discriminate.
    + cbv zeta. apply bind_UB; [now apply IH|]. intros [[] ?]; discriminate.
  - apply bind_UB; [|intros []; discriminate]. first [apply calm_array|apply calm_object]; auto.
    + intros k s ra s' rb H. apply bind_ok in H as ([[x m] rc] & H0 & H). pose proof (rs_typed _ _ _ _ _ _ _ _ H0) as R. destruct (rok rc); [destruct m; [discriminate|]|]; injection H as <- <-; exact R.
    + intros k s ra R. apply bind_UB; [apply IH; [eapply calm_rs|eapply no_skip_rs]; eauto|]. intros [[x m] rc] _. destruct (rok rc); [destruct m|]; discriminate.
  - apply bind_UB; [|intros []; discriminate]. first [apply calm_object|apply calm_array]; auto.
    + intros k s ra s' rb H. apply bind_ok in H as ([[x m] rc] & H0 & H). pose proof (rs_typed _ _ _ _ _ _ _ _ H0) as R. destruct (rok rc); [destruct m; [discriminate|]|]; injection H as <- <-; exact R.
    + intros k s ra R. apply bind_UB; [apply IH; [eapply calm_rs|eapply no_skip_rs]; eauto|]. intros [[x m] rc] _. destruct (rok rc); [destruct m|]; discriminate.
  - apply bind_UB; [now apply calm_dyn|]. intros []; discriminate.
  - destruct K as [K|K]; [exfalso; exact (K _ _ _ Ed)|].
    apply bind_UB; [|intros []; discriminate]. first [apply calm_object|apply calm_array]; auto.
    + intros k s ra s' rb H. destruct (find_alias fs k).
      * binv H. destruct a as [[x m] rc]. injection H as <- <-. eapply rs_typed; eauto.
      * binv H. injection H as <- <-. eapply rs_skip; eauto.
    + intros k s ra R. destruct (find_alias fs k).
      * apply bind_UB; [|intros [[] ?]; discriminate]. apply IH; [eapply calm_rs; eauto|]. right. intros f2 r2 R2. apply K. eapply rs_trans; eauto.
      * apply bind_UB; [now apply K|discriminate].
Qed.
Lemma init_UB : forall fuel e t c, init_parser fuel e t c <> UB.
Proof.
  induction fuel as [|f IH]; intros e t c; cbn [init_parser]; [discriminate|]. destruct (existsb _ _); [discriminate|]. cbv zeta.
  destruct (nth_error e t) as [d|]; [|discriminate]. destruct d; try discriminate; auto.
  destruct (dup_alias _); [discriminate|].
  enough (G : forall l acc, acc <> UB -> fold_left (fun acc fd => do c0 <- acc; init_parser f e (f_type fd) c0) l acc <> UB) by (apply G; discriminate).
  induction l as [|x l IHl]; intros acc A; cbn [fold_left]; auto. apply IHl. apply bind_UB; auto.
Qed.

(* when the bytes of the document are such that the tokenizer is well defined *)
Definition tokenizable (o : ropts) (s : str) : Prop :=
  o_validate o = false \/ (Forall (fun c => c < 255) s /\ exists z, s = z ++ [10]).
Lemma tokenizable_calm o s : tokenizable o s -> calm (reader_init o s).
Proof.
  intros H r' R. pose proof (rs_evolves _ _ R) as V. destruct H as [H|[B En]].
  - destruct (lex_token_fine r') as [F _]. intro E. rewrite E in F. cbn in F. destruct V as (Eo & _). rewrite Eo in F. cbn in F. congruence.
  - apply lex_live; [eapply part_ev; [exact V|]; right; exact En|eapply low_ev; [exact V|exact B]].
Qed.

(* Reading a whole document into a value of types without classes is never undefined
   behaviour, whatever the document. *)
Theorem c38_documents_defined : forall (o : ropts) (s : str) (fuel : nat) (e : env) (t : nat) (v : val),
  tokenizable o s -> (forall t fs c, nth_error e t <> Some (DObj fs c)) ->
  parse_text fuel o e t v s <> UB.
Proof.
  intros o s fuel e t v H K. unfold parse_text. apply bind_UB; [apply init_UB|]. intros _ _.
  apply bind_UB; [apply calm_typed; [now apply tokenizable_calm|now left]|]. intros [[] ?]; discriminate.
Qed.
Print Assumptions c38_documents_defined.

(* With classes it is when the value of an unknown key is skipped, and there alone. *)
Lemma skip_is_the_only_source : forall (o : ropts) (s : str) (fuel : nat) (e : env) (t : nat) (v : val),
  tokenizable o s -> parse_text fuel o e t v s = UB ->
  ~ forall fuel' r, rsteps (reader_init o s) r -> skip fuel' r <> UB.
Proof.
  intros o s fuel e t v H E K. revert E. unfold parse_text. apply bind_UB; [apply init_UB|]. intros _ _.
  apply bind_UB; [apply calm_typed; [now apply tokenizable_calm|now right]|]. intros [[] ?]; discriminate.
Qed.

(* a list of integers read from a document that is no list of integers *)
Example c38_documents_example :
  tokenizable ropts_default (lit "[ 1, {} ]" ++ [10]) /\
  parse_text 30 ropts_default [DList 1%nat; DInt true] 0 (VList []) (lit "[ 1, {} ]" ++ [10]) = Abort /\
  parse_text 30 ropts_default [DObj [] []] 0 (VObj []) (lit "{""a"": ]}" ++ [10]) = UB.
Proof.
  split; [right; split; [repeat constructor|now eexists]|]. split; vm_compute; reflexivity.
Qed.
