(* PropJsonTok.v - C34, C35, C36, C37, C38, C42: the reader. *)
From Coq Require String. Import String.StringSyntax.
From Verif Require Import Base Dec ModelJson ModelJsonW ModelJsonT SpecJson ProofJson1 ProofJson2 ProofJson3 ProofJson4 ProofJson5 ProofJson6 ProofJson7 ProofJson8 ProofJson9 ProofJson10 PropJsonStr.
Local Open Scope outcome_scope.
Local Open Scope N_scope.

(* ==== C34 ==== *)
(* Producing a token ends (for the loops of the tokenizer, the number of steps the
   model allows is always enough), reads only bytes of the input, and takes at least
   one unless the reader is left not ok. *)
Theorem c34_token_progress : forall r : reader,
  lex_token r <> OutOfFuel /\
  forall t r', lex_token r = Ok (t, r') ->
    exists consumed, rin r = consumed ++ rin r' /\
      (consumed <> [] \/ rok r' = false) /\ (t = TEOS -> rok r' = false).
Proof.
  intro r. split; [apply lex_nf|]. intros t r' E. destruct (lex_token_fine r) as [F P]. rewrite E in F. cbn in F.
  destruct F as (Hev & _ & Heos). destruct (P t r' E) as [_ Hlen]. destruct Hev as (Ho & He & (c & Hc) & Hev').
  exists c. split; [exact Hc|]. split; [|exact Heos].
  destruct (rok r') eqn:K'; [left|now right].
  assert (K : rok r = true).
  { destruct (rok r) eqn:K; auto. rewrite (lex_not_ok r K) in E. apply ok_inj in E. apply pair_equal_spec in E as [_ <-]. congruence. }
  specialize (Hlen K eq_refl). intros ->. cbn in Hc. rewrite Hc in Hlen. nlia.
Qed.
Print Assumptions c34_token_progress.

(* A whole document: recursion and loops are bounded by the length of the text (and
   the number of types), so parsing ends whatever the text, the type and the target
   are.  ptr_ranked says that no chain of pointer types is cyclic without passing
   through a class or a container, which C++ guarantees. *)
Theorem c34_document_terminates : forall (e : env) (rank : nat -> nat) (K : nat),
  ptr_ranked e rank K ->
  forall (o : ropts) (t : nat) (s : str), exists steps : nat,
  forall (fuel : nat) (v : val), (steps <= fuel)%nat -> parse_text fuel o e t v s <> OutOfFuel.
Proof.
  intros e rank K He o t s. exists (S (length e + (length s + 1) * (K + 1) + rank t + 2))%nat. intros fuel v Hf.
  eapply parse_text_ends; eauto.
Qed.
Print Assumptions c34_document_terminates.

(* a recursive type: struct Tree { string name; vector<shared_ptr<Tree>> kids } *)
Definition tree_env : env :=
  [DObj [mkF (lit "name") 1 false [] false; mkF (lit "kids") 2 false [] false] [(lit "name", VStr []); (lit "kids", VList [])];
   DStr; DList 3; DPtr true 0].
Example c34_example : ptr_ranked tree_env (fun t => if (t =? 3)%nat then 1%nat else 0%nat) 1.
Proof.
  split.
  - intro t. destruct (t =? 3)%nat; lia.
  - intros t sm i H. destruct t as [|[|[|[|[|t]]]]]; cbn in H; try discriminate. injection H as _ <-. cbn. lia.
Qed.

(* ==== C35 ==== *)
(* Every way to use a reader after its construction: the token operations, reporting
   an error, the generic parser with any callbacks that themselves only use the
   reader in these ways, skip, the typed parser, and any sequence of them. *)
Inductive uses : reader -> reader -> Prop :=
| u_peek r t r' : peek_tok r = Ok (t, r') -> uses r r'
| u_next r t r' : next_tok r = Ok (t, r') -> uses r r'
| u_expect exp r t r' : expect_tok exp r = Ok (t, r') -> uses r r'
| u_error msg r : uses r (rerror_set (EOther msg) r)
| u_null r r' : parse_null r = Ok r' -> uses r r'
| u_bool r b r' : parse_bool r = Ok (b, r') -> uses r r'
| u_int r z r' : parse_int r = Ok (z, r') -> uses r r'
| u_float r x r' : parse_float r = Ok (x, r') -> uses r r'
| u_string r s r' : parse_string r = Ok (s, r') -> uses r r'
| u_skip fuel r r' : skip fuel r = Ok r' -> uses r r'
| u_array (S : Type) (fn : nat -> S -> reader -> outcome (S * reader)) fuel s r s' r' :
    (forall i a ra a' ra', fn i a ra = Ok (a', ra') -> uses ra ra') ->
    parse_array fuel fn s r = Ok (s', r') -> uses r r'
| u_object (S : Type) (fn : str -> S -> reader -> outcome (S * reader)) fuel s r s' r' :
    (forall k a ra a' ra', fn k a ra = Ok (a', ra') -> uses ra ra') ->
    parse_object fuel fn s r = Ok (s', r') -> uses r r'
| u_typed fuel e t v r v' m r' : parse_t fuel e t v r = Ok (v', m, r') -> uses r r'
| u_nothing r : uses r r
| u_seq r r1 r2 : uses r r1 -> uses r1 r2 -> uses r r2.

Lemma uses_rsteps r r' : uses r r' -> rsteps r r'.
Proof.
  induction 1.
  - eapply rs_peek; eauto.
  - eapply rs_next; eauto.
  - eapply rs_expect; eauto.
  - apply rs_err1. exact Logic.I.
  - eapply rs_null; eauto.
  - eapply rs_bool; eauto.
  - eapply rs_int; eauto.
  - eapply rs_float; eauto.
  - eapply rs_string; eauto.
  - eapply rs_skip; eauto.
  - eapply rs_array; eauto.
  - eapply rs_object; eauto.
  - eapply rs_typed; eauto.
  - apply rs_refl.
  - eapply rs_trans; eauto.
Qed.

(* After an error: the same error, not ok, and nothing more is read. *)
Theorem c35_first_error_sticks : forall (r r' : reader) (err : rerror),
  uses r r' -> rerr r = Some err -> rerr r' = Some err /\ rok r' = false /\ rin r' = rin r.
Proof.
  intros r r' err H He. apply uses_rsteps in H. pose proof (rs_evolves _ _ H) as (_ & E & _).
  assert (K : rok r = false) by (unfold rok; now rewrite He).
  destruct (rs_frozen _ _ H K) as [A B]. auto.
Qed.
Print Assumptions c35_first_error_sticks.

Example c35_example :
  exists r1 r2 t, uses (reader_init ropts_default (lit "?x 1")) r1 /\ rerr r1 = Some (mkErr 1 2 (EChar 63)) /\
    next_tok r1 = Ok (t, r2) /\ rerr (rerror_set (EOther (lit "again")) r2) = Some (mkErr 1 2 (EChar 63)).
Proof.
  do 3 eexists. split; [eapply u_next; vm_compute; reflexivity|]. wit.
Qed.

(* ==== C36 ==== *)
(* What a user sees of one token: its type and value. *)
Definition observe1 (r : reader) : outcome (atok * reader) :=
  do (t, r1) <- next_tok r;
  match t with
  | TObjS => Ok (AObjS, r1) | TObjE => Ok (AObjE, r1) | TArrS => Ok (AArrS, r1) | TArrE => Ok (AArrE, r1)
  | TSep => Ok (ASep, r1) | TKey => Ok (AKey, r1) | TNull => Ok (ANull, r1)
  | TBool _ => do b <- as_bool t; Ok (ABool b, r1)
  | TInt => do z <- as_int t r1; Ok (AInt z, r1)
  | TFloat => do x <- as_float t r1; Ok (AFloat x, r1)
  | TStr => do s <- as_string t r1; Ok (AStr s, r1)
  | TNone | TEOS => Throw
  end.
(* the next n tokens *)
Fixpoint observe (n : nat) (r : reader) : outcome (list atok * reader) :=
  match n with
  | O => Ok ([], r)
  | S n' => do (t, r1) <- observe1 r; do (ts, r2) <- observe n' r1; Ok (t :: ts, r2)
  end.

Definition tok_int64 (t : atok) : Prop := match t with AInt z => int64 z | _ => True end.

Lemma stod_ok x : float_text x -> stod x = Ok x.
Proof.
  intros [sg ds fr ex Hs Hn Hd _ _ _]. destruct ds as [|d ds]; [contradiction|]. inversion Hd as [|? ? H1 H2]; subst.
  pose proof (proj2 (isdigit_iff d) H1) as Hi.
  destruct Hs as [->| ->]; cbn [app stod].
  - destruct (N.eqb_spec d 45) as [->|]; [unfold digit_char in H1; lia|]. now rewrite Hi.
  - change (45 =? 45) with true. cbv iota. now rewrite Hi.
Qed.

(* same as lex_V but remembering that a float token is one *)
Lemma observe1_ok o t ts rest r : V o (t :: ts) rest r -> tok_int64 t ->
  exists r', observe1 r = Ok (t, r') /\ V o ts rest r'.
Proof.
  intros HV Hi. pose proof HV as (s0 & b0 & _ & Hl). destruct (lexes_cons_inv _ _ _ _ _ Hl) as (w & x & s' & _ & _ & Ht & _).
  destruct (next_view o t ts rest r (V_view _ _ _ _ HV)) as (r' & E & HV' & HP).
  exists r'. split; [|exact HV']. unfold observe1. rewrite E. cbn [bind].
  destruct t; cbn [tok_of payload] in *; auto; cbn [as_string as_int as_float as_bool bind].
  - now rewrite HP.
  - rewrite (stol_ok z _ HP Hi). reflexivity.
  - rewrite HP. inversion Ht; subst. rewrite stod_ok by assumption. reflexivity.
Qed.

Theorem c36_tokens_of_text : forall (o : ropts) (s : str) (ts : list atok) (rest : str),
  lexes (dia o) s ts rest -> Forall tok_int64 ts ->
  exists r, observe (length ts) (reader_init o s) = Ok (ts, r) /\ rerr r = None /\ rin r = rest.
Proof.
  intros o s ts rest Hl Hi. pose proof (V_init _ _ _ _ Hl) as HV. clear Hl. revert HV. generalize (reader_init o s). revert Hi.
  induction ts as [|t ts IH]; intros Hi r HV.
  - exists r. destruct (V_end _ _ _ HV) as (A & B & _). auto.
  - inversion Hi as [|? ? H1 H2]; subst. destruct (observe1_ok _ _ _ _ _ HV H1) as (r1 & E1 & HV1).
    destruct (IH H2 r1 HV1) as (r2 & E2 & A & B). exists r2. cbn [length observe]. rewrite E1. cbn [bind]. rewrite E2. auto.
Qed.
Print Assumptions c36_tokens_of_text.

Lemma tok_text_nonempty d t x : tok_text d t x -> x <> [].
Proof.
  destruct 1; try discriminate.
  - destruct H; [assumption|discriminate].
  - destruct H as [sg ds fr ex Hs Hn Hd _ _ _]. destruct ds as [|c ds]; [contradiction|]. destruct Hs; subst; discriminate.
Qed.
Lemma num_stop_app x a b : (num_stop a -> num_stop b) -> num_stop (x ++ a) -> num_stop (x ++ b).
Proof.
  intros H. destruct x as [|c x]; auto. intros (c' & s' & E & Hc). cbn [app] in *. apply cons_inv in E as [<- <-]. exists c, (x ++ b). auto.
Qed.
Lemma lexes_suffix d s ts rest : lexes d s ts rest -> exists x, s = x ++ rest /\
  forall rest', (num_stop rest -> num_stop rest') -> lexes d (x ++ rest') ts rest'.
Proof.
  induction 1 as [s|w t x s ts rest Hw Ht Hn Hl (y & -> & IH)].
  - exists []. split; [reflexivity|]. intros rest' _. constructor.
  - exists (w ++ x ++ y). split; [now rewrite !app_assoc|]. intros rest' Hr.
    replace ((w ++ x ++ y) ++ rest') with (w ++ x ++ y ++ rest') by now rewrite !app_assoc.
    constructor; auto. intro Hm. eapply num_stop_app; eauto.
Qed.
Lemma lexes_app d s ts mid ts' rest : lexes d s ts mid -> lexes d mid ts' rest -> lexes d s (ts ++ ts') rest.
Proof. induction 1; cbn [app]; auto. intro. constructor; auto. Qed.
Lemma blank_app d w v : blank d w -> blank d v -> blank d (w ++ v).
Proof.
  induction 1 as [|c w Hc Hw IH|b w Hd Hb Hw IH]; intro Hv; cbn [app]; auto.
  - constructor; auto.
  - rewrite <- app_assoc. cbn [app]. apply bl_comment; auto.
Qed.
Lemma lexes_blank d w s ts rest : blank d w -> ts <> [] -> lexes d s ts rest -> lexes d (w ++ s) ts rest.
Proof.
  intros Hw Hn Hl. destruct Hl as [|v t x s ts rest Hv Ht Hs Hl]; [contradiction|].
  rewrite app_assoc. constructor; auto. now apply blank_app.
Qed.
Lemma blank_stop d w s : blank d w -> num_stop s -> num_stop (w ++ s).
Proof.
  destruct 1 as [|c w Hc Hw|b w Hd Hb Hw]; auto; intros _; cbn [app].
  - exists c, (w ++ s). unfold space_char, digit_char in *. repeat split; lia.
  - eexists 47, _. unfold digit_char. repeat split; try lia.
Qed.

(* Inserting blanks (white space, and comments where they are enabled) at any token
   boundary: the same tokens are read, and what follows them is the same. *)
Theorem c36_blanks_insignificant : forall (o : ropts) (a b w : str) (ts1 ts2 : list atok) (rest : str),
  lexes (dia o) (a ++ b) ts1 b -> lexes (dia o) b ts2 rest -> ts2 <> [] ->
  blank (dia o) w -> Forall tok_int64 (ts1 ++ ts2) ->
  exists r r',
    observe (length (ts1 ++ ts2)) (reader_init o (a ++ b)) = Ok (ts1 ++ ts2, r) /\ rerr r = None /\ rin r = rest /\
    observe (length (ts1 ++ ts2)) (reader_init o (a ++ w ++ b)) = Ok (ts1 ++ ts2, r') /\ rerr r' = None /\ rin r' = rest.
Proof.
  intros o a b w ts1 ts2 rest H1 H2 Hne Hw Hi.
  destruct (c36_tokens_of_text o (a ++ b) (ts1 ++ ts2) rest (lexes_app _ _ _ _ _ _ H1 H2) Hi) as (r & E & A & B).
  destruct (lexes_suffix _ _ _ _ H1) as (x & Ex & Hx). apply app_inv_tail in Ex. subst x.
  assert (H3 : lexes (dia o) (a ++ w ++ b) (ts1 ++ ts2) rest).
  { eapply lexes_app; [apply (Hx (w ++ b)); intro; eapply blank_stop; eauto|]. now apply lexes_blank. }
  destruct (c36_tokens_of_text o _ _ rest H3 Hi) as (r' & E' & A' & B'). exists r, r'. auto 10.
Qed.
Print Assumptions c36_blanks_insignificant.

Example c36_example :
  blank (mkDialect true true true) (lit " //c" ++ [10]) /\
  lexes (mkDialect true true true) (lit "[1,") [AArrS; AInt 1] (lit ",") /\
  exists r, observe 4 (reader_init (mkOpts true true true) (lit "[1 //c" ++ [10] ++ lit ",2 ]")) = Ok ([AArrS; AInt 1; ASep; AInt 2], r).
Proof.
  split.
  { change (lit " //c" ++ [10]) with (32 :: (47 :: 47 :: [99] ++ 10 :: [])). apply bl_space; [now left|].
    apply bl_comment; [reflexivity|cbn; intuition discriminate|constructor]. }
  split.
  { change (lit "[1,") with ([] ++ lit "[" ++ ([] ++ lit "1" ++ lit ",")).
    constructor; [constructor|constructor|intros []|].
    constructor; [constructor| | |constructor].
    - constructor. apply (it_pos (lit "1")); [discriminate|]. repeat constructor; unfold digit_char; cbn; lia.
    - intros _. exists 44, []. unfold digit_char. repeat split; try discriminate. lia. }
  eexists. vm_compute. reflexivity.
Qed.

(* ==== C37 ==== *)
(* A reader without error, at the start of a token. *)
Definition at_token (o : ropts) (s : str) (r : reader) : Prop :=
  rin r = s /\ rerr r = None /\ rfail r = false /\ reof r = false /\ rtok r = TNone /\ ropt r = o.

Lemma at_token_R o s r : at_token o s r <-> exists b, R o s b TNone r.
Proof.
  split.
  - intros (A & B & C & D & E & F). exists (rbuf r), (rpos r), (rline r). destruct r; cbn in *; subst. reflexivity.
  - intros (b & p & l & ->). repeat split.
Qed.

Theorem c37_skip_exactly_one : forall (o : ropts) (j : json) (s rest : str) (r : reader),
  json_text (dia o) j s rest -> at_token o s r ->
  exists steps, forall fuel, (steps <= fuel)%nat ->
    exists r', skip fuel r = Ok r' /\ at_token o rest r'.
Proof.
  intros o j s rest r Hj Hr. apply at_token_R in Hr as (b & Hr). exists (S (jsize j)). intros fuel Hf.
  destruct (skip_view o rest j [] r fuel) as (r' & E & HV).
  - left. exists s, b. rewrite app_nil_r. auto.
  - nlia.
  - exists r'. split; [exact E|]. apply at_token_R. destruct HV as (s' & b' & HR & Hl). inversion Hl; subst. eauto.
Qed.
Print Assumptions c37_skip_exactly_one.

Example c37_example :
  exists r, skip 20 (reader_init ropts_default (lit "[1, {},[ ] ,[null, true]] , 7")) = Ok r /\ at_token ropts_default (lit " , 7") r.
Proof. eexists. split; [vm_compute; reflexivity|]. cbn. repeat split. Qed.
Example c37_example_text : json_text (dia ropts_default) (JArr [JInt 1; JArr []]) (lit "[1 ,[]]") [].
Proof.
  unfold json_text. cbn [toks sep_by map app].
  change (lit "[1 ,[]]") with ([] ++ lit "[" ++ ([] ++ lit "1" ++ (lit " " ++ lit "," ++ ([] ++ lit "[" ++ ([] ++ lit "]" ++ ([] ++ lit "]" ++ [])))))).
  constructor; [constructor|constructor|intros []|].
  constructor; [constructor| | |].
  { constructor. apply (it_pos (lit "1")); [discriminate|]. repeat constructor; unfold digit_char; cbn; lia. }
  { intros _. exists 32, (lit ",[]]"). unfold digit_char. repeat split; try discriminate. lia. }
  constructor; [apply bl_space; [now left|constructor]|constructor|intros []|].
  repeat (constructor; [constructor|constructor|intros []|]). constructor.
Qed.

(* A number that ends the input: skip leaves it as the look-ahead token. *)
Theorem c37_number_at_end_refuted :
  exists r, skip 5 (reader_init ropts_default (lit "12")) = Ok r /\ rerr r = None /\ rok r = false /\ rtok r = TInt.
Proof. eexists. split; [vm_compute; reflexivity|]. repeat split. Qed.
Print Assumptions c37_number_at_end_refuted.

(* ==== C38 ==== *)
(* The token layer without unicode validation: every outcome is a token and a
   reader (which may carry an error). *)
Theorem c38_token_layer_total : forall r : reader,
  o_validate (ropt r) = false ->
  (exists t r', next_tok r = Ok (t, r')) /\
  (exists t r', peek_tok r = Ok (t, r')) /\
  (forall exp, exists t r', expect_tok exp r = Ok (t, r')).
Proof.
  intros r Hv. destruct (lex_token_fine r) as [F _].
  assert (HL : exists t r', lex_token r = Ok (t, r')).
  { destruct (lex_token r) as [[t r']| | | |]; cbn in F; eauto; try contradiction. congruence. }
  destruct HL as (t & r' & E).
  assert (HN : exists t r', next_tok r = Ok (t, r')).
  { unfold next_tok. destruct (same_type (rtok r) TNone); eauto. }
  split; [exact HN|]. split.
  - unfold peek_tok. destruct (same_type (rtok r) TNone); eauto. rewrite E. cbn [bind]. eauto.
  - intro exp. destruct HN as (t1 & r1 & E1). unfold expect_tok. rewrite E1. cbn [bind]. destruct (same_type t1 exp); eauto.
Qed.
Print Assumptions c38_token_layer_total.

(* With validation: undefined behaviour is the only other outcome. *)
Theorem c38_token_layer_validating : forall r : reader,
  (exists t r', next_tok r = Ok (t, r')) \/ next_tok r = UB.
Proof.
  intro r. destruct (lex_token_fine r) as [F _]. unfold next_tok. destruct (same_type (rtok r) TNone); eauto.
  destruct (lex_token r) as [[t r']| | | |]; cbn in F; eauto; contradiction.
Qed.
Print Assumptions c38_token_layer_validating.

(* What goes wrong above the token layer and with validation. *)
Definition parse0 (t : jtype) (s : str) : outcome (val * reader) := parse_text 50 ropts_default [t; DStr] 0 VVoid s.
Definition q (s : str) : str := [34] ++ s ++ [34].
Theorem c38_malformed_fatal_refuted :
  (* a bool where none is: abort *)
  parse0 DBool (lit "1 ") = Abort /\
  (* an integer that is a lone minus, or too large: foreign exception *)
  parse0 (DInt true) (lit "- ") = Throw /\
  parse0 (DInt true) (lit "99999999999999999999 ") = Throw /\
  (* an unterminated string: undefined behaviour *)
  parse0 DStr (34 :: lit "abc") = UB /\
  (* a trailing comma in an object: abort *)
  parse0 (DMap 1) (lit "{" ++ q (lit "a") ++ lit ":" ++ q (lit "b") ++ lit ",}") = Abort /\
  (* a bracket where the value of an unknown key should be: undefined behaviour *)
  parse0 (DObj [] []) (lit "{" ++ q (lit "a") ++ lit ":]") = UB.
Proof. wit. Qed.
Print Assumptions c38_malformed_fatal_refuted.

Example c38_example :
  exists t r, next_tok (reader_init (mkOpts false true false) [34; 255]) = Ok (t, r) /\ rok r = false.
Proof. do 2 eexists. wit. Qed.

(* ==== C42 ==== *)
Theorem c42_line_counts_newlines : forall (o : ropts) (s : str) (r : reader),
  o_comments o = false -> uses (reader_init o s) r ->
  (rerr r = None -> exists consumed, s = consumed ++ rin r /\ rline r = 1 + newlines consumed) /\
  (forall err, rerr r = Some err -> exists before last,
     s = before ++ last ++ rin r /\ (length last <= 1)%nat /\ err_line err = 1 + newlines before).
Proof.
  intros o s r Ho Hu. apply uses_rsteps in Hu. destruct (rs_tracks _ _ Hu Ho) as (A & B & _). split.
  - intro H. destruct (A H) as (_ & c & Hc). exists c. exact Hc.
  - intros err H. destruct (B err eq_refl H) as (c & x & Hx). exists c, x. exact Hx.
Qed.
Print Assumptions c42_line_counts_newlines.

Example c42_example :
  exists r t, next_tok (reader_init ropts_default ([10; 32; 10; 13] ++ lit "?")) = Ok (t, r) /\
    rerr r = Some (mkErr 3 3 (EChar 63)).
Proof. do 2 eexists. wit. Qed.

(* The newline that ends a comment is not counted. *)
Theorem c42_comment_line_refuted :
  exists t r, next_tok (reader_init (mkOpts true true true) (lit "//c" ++ [10] ++ lit "1 ")) = Ok (t, r) /\
    rerr r = None /\ rin r = lit " " /\ rline r = 1.
Proof. do 2 eexists. wit. Qed.
Print Assumptions c42_comment_line_refuted.
