(* PropJsonMsgTok.v - C88: what is reported when the next token is not the one that is
   expected. *)
From Coq Require String. Import String.StringSyntax.
From Verif Require Import Base Dec ModelJson ModelJsonT SpecJson ProofJson1 ProofJson2 ProofJson3 ProofJson10 PropJsonStr PropJsonTok ModelJsonMsg ProofJson5 PropJsonMsg SpecJsonMsg SpecJson.
Local Open Scope outcome_scope.
Local Open Scope N_scope.

(* the kind of a token of a document *)
Definition kind_of (a : atok) : token :=
  match a with
  | AObjS => TObjS | AObjE => TObjE | AArrS => TArrS | AArrE => TArrE | ASep => TSep | AKey => TKey
  | ANull => TNull | ABool b => TBool b | AInt _ => TInt | AFloat _ => TFloat | AStr _ => TStr
  end.
(* what is quoted of it: a string's value, a number's text *)
Definition quote_of (a : atok) (b : str) : Prop :=
  match a with AStr s => b = s | AInt z => int_text z b | AFloat x => b = x | _ => True end.

(* A reader without error in front of a token of another kind than the one expected
   has, after expectToken, an error whose description names both, the one found first. *)
Theorem c88_unexpected_token : forall (o : ropts) (s rest : str) (a : atok) (exp : token) (r : reader),
  lexes (dia o) s [a] rest -> at_token o s r -> same_type (kind_of a) exp = false ->
  exists r' line pos text,
    expect_tok exp r = Ok (TEOS, r') /\ rerr r' = Some (mkErr line pos (EUnexpected (kind_of a) exp text)) /\
    quote_of a text /\ rin r' = rest.
Proof.
  intros o s rest a exp r Hl Hr He. apply at_token_R in Hr as (b & Hr).
  assert (HV : V o [a] rest r) by (exists s, b; auto).
  destruct (next_view o a [] rest r (V_view _ _ _ _ HV)) as (r1 & E & HV1 & HP).
  assert (Ek : tok_of a = kind_of a) by (destruct a; reflexivity). rewrite Ek in E.
  unfold expect_tok. rewrite E. cbn [bind]. rewrite He. unfold assert_tok. rewrite He.
  destruct (V_end _ _ _ HV1) as (A & B & C & D).
  unfold rerror_set. rewrite B. do 4 eexists. split; [reflexivity|]. cbn [rerr rin].
  split; [reflexivity|]. split; [exact HP|exact A].
Qed.
Print Assumptions c88_unexpected_token.
(* The text the user sees, for the first token of a document (with a NUL in a string the
   text stops there). *)
Theorem c88_unexpected_token_text : forall (o : ropts) (s rest : str) (a : atok) (exp : token) (x : str),
  lexes (dia o) s [a] rest -> same_type (kind_of a) exp = false -> named exp x ->
  Forall (fun c => c < 256) s -> (length s <= 960)%nat ->
  exists r e text g,
    expect_tok exp (reader_init o s) = Ok (TEOS, r) /\ rerr r = Some e /\
    quote_of a text /\ shown (kind_of a) text g /\
    (~ In 0 text -> error_what e = Ok (dec (err_line e) ++ lit ":" ++ dec (err_pos e) ++ lit ": " ++
      lit "unexpected token <" ++ g ++ lit ">, expecting <" ++ x ++ lit ">")).
Proof.
  intros o s rest a exp x Hl He Hx B L.
  assert (Ha : at_token o s (reader_init o s)) by (apply at_token_R; eexists; apply R_init).
  destruct (c88_unexpected_token o s rest a exp _ Hl Ha He) as (r & l & p & t & A & C & D & _).
  exists r, (mkErr l p (EUnexpected (kind_of a) exp t)), t, (token_text (kind_of a) t).
  assert (Sh : shown (kind_of a) t (token_text (kind_of a) t)) by now apply shown_text.
  split; [exact A|]. split; [exact C|]. split; [exact D|]. split; [exact Sh|]. intro Z.
  destruct (c88_message o s r _ B L (u_expect _ _ _ _ A) C) as (m & M & W); [discriminate|exact Z|].
  rewrite W. cbn [err_cause] in M. pose proof (c88_description_unique _ _ _ M (s_unexpected _ _ _ _ _ Sh Hx)) as ->. reflexivity.
Qed.
Print Assumptions c88_unexpected_token_text.

Example c88_token_example : exists r e,
  lexes (dia ropts_default) (lit " 12,") [AInt 12] (lit ",") /\
  expect_tok TStr (reader_init ropts_default (lit " 12,")) = Ok (TEOS, r) /\ rerr r = Some e /\
  error_what e = Ok (lit "1:4: unexpected token <<Token int: 12>>, expecting <string>").
Proof.
  do 2 eexists. split.
  { change (lit " 12,") with (lit " " ++ lit "12" ++ lit ",").
    constructor; [apply bl_space; [now left|constructor]| | |constructor].
    - constructor. apply (it_pos (lit "12")); [discriminate|]. repeat constructor; unfold digit_char; cbn; lia.
    - intros _. exists 44, []. unfold digit_char. repeat split; try discriminate. lia. }
  wit.
Qed.
