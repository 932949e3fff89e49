(* PropJsonOpts.v - C29, C31, C36 under the options a user gets by default, and what
   happens to a comment when comments are not allowed. *)
From Coq Require String. Import String.StringSyntax.
From Verif Require Import Base Dec ModelJson ModelJsonW SpecJson ProofJson1 ProofJson2 ProofJson3 ProofJson4 ProofJson5 ProofJson10 ProofJsonA1 ProofJsonA9 PropJsonStr PropJsonTok.
Local Open Scope outcome_scope.
Local Open Scope N_scope.

(* ==== C29, the default options on both sides ==== *)
Theorem c29_default_options : forall (s rest : str),
  utf8_text (fun cp => cp < 0x10000) s ->
  exists w text r,
    format_string s (writer_init wopts_default) = Ok w /\ wout w = text /\ werr w = false /\
    parse_string (reader_init ropts_default (text ++ rest)) = Ok (s, r) /\ rerr r = None /\ rin r = rest.
Proof.
  intros s rest Hs.
  destruct (c29_escaped_round_trip s (writer_init wopts_default) ropts_default rest Hs eq_refl eq_refl eq_refl) as (x & r & A & B & C & D).
  exists (push x (writer_init wopts_default)), x, r. split; [exact A|]. split; [reflexivity|]. split; [reflexivity|]. auto.
Qed.
Print Assumptions c29_default_options.

(* ==== C31, the default reader ==== *)
Theorem c31_default_reader : forall x rest : str,
  raw_text x -> ~ In 255 x -> byte_string rest ->
  exists v r, parse_string (reader_init ropts_default (34 :: x ++ 34 :: rest)) = Ok (v, r) /\
    (rerr r = None <-> utf8_text (fun _ => True) x) /\
    (rerr r = None -> v = x /\ rin r = rest).
Proof. intros x rest. exact (c31_reader_accepts_exactly_utf8 ropts_default x rest eq_refl). Qed.
Print Assumptions c31_default_reader.

(* ==== C36, comments that are not allowed ==== *)
Lemma observe_V o rest : forall ts r, V o ts rest r -> Forall tok_int64 ts ->
  exists r', observe (length ts) r = Ok (ts, r') /\ V o [] rest r'.
Proof.
  induction ts as [|t ts IH]; intros r HV Hi.
  - exists r. auto.
  - inversion Hi as [|? ? H1 H2]; subst. destruct (observe1_ok _ _ _ _ _ HV H1) as (r1 & E1 & HV1).
    destruct (IH r1 HV1 H2) as (r2 & E2 & HV2). exists r2. cbn [length observe]. rewrite E1. cbn [bind]. rewrite E2. auto.
Qed.

Lemma next_char_comment o w rest b t r : o_comments o = false -> blank (dia o) w -> R o (w ++ 47 :: 47 :: rest) b t r ->
  exists c r', next_char (rfuel r) r = Ok (c, r') /\ rok r' = false /\ exists l p, rerr r' = Some (mkErr l p EComment).
Proof.
  intros Hc Hw H. unfold rfuel. rewrite (R_in _ _ _ _ _ H).
  destruct (next_char_blank o w Hw (47 :: 47 :: rest) b t r (S (S (length (w ++ 47 :: 47 :: rest)))) (R_Q _ _ _ _ _ H)) as (r1 & f & E & H1 & Hf).
  { rewrite app_length. lia. }
  rewrite E. destruct f as [|[|f]]; [lia|lia|]. cbn [next_char]. rewrite (Q_ok _ _ _ _ _ H1). apply Q_R in H1. rpop H1 r2 H2.
  change (47 =? c_nl) with false. cbv iota. change (isspace 47) with false. cbv iota.
  change (47 =? c_slash) with true. cbv iota.
  rewrite (R_peek _ _ _ _ _ _ H2). change (47 =? c_slash) with true. cbv iota.
  rewrite (R_opt _ _ _ _ _ H2), Hc. destruct H2 as (p & l & ->).
  unfold rfuel. cbn. do 2 eexists. split; [reflexivity|]. split; [reflexivity|]. do 2 eexists. reflexivity.
Qed.

(* A comment is an error when the options do not allow comments: the tokens before it
   are read, and then whatever the comment says and whatever follows it the reader has
   that error, and returns the token that means there is none. *)
Theorem c36_comments_rejected : forall (o : ropts) (s w rest : str) (ts : list atok),
  o_comments o = false ->
  lexes (dia o) (s ++ w ++ 47 :: 47 :: rest) ts (w ++ 47 :: 47 :: rest) -> Forall tok_int64 ts ->
  blank (dia o) w ->
  exists r r',
    observe (length ts) (reader_init o (s ++ w ++ 47 :: 47 :: rest)) = Ok (ts, r) /\ rerr r = None /\
    next_tok r = Ok (TEOS, r') /\ rok r' = false /\ exists line pos, rerr r' = Some (mkErr line pos EComment).
Proof.
  intros o s w rest ts Hc Hl Hi Hw.
  destruct (observe_V o _ ts _ (V_init _ _ _ _ Hl) Hi) as (r & E & HV).
  destruct HV as (s0 & b & HR & Hl0). inversion Hl0; subst.
  destruct (next_char_comment o w rest b TNone r Hc Hw HR) as (c & r' & E1 & K & Er).
  exists r, r'. split; [exact E|]. destruct HR as (p & l & ->). split; [reflexivity|].
  split; [|auto]. unfold next_tok. cbn [rtok same_type]. unfold lex_token. cbn [rok rerr rfail negb]. rewrite E1. cbn [bind]. now rewrite K.
Qed.
Print Assumptions c36_comments_rejected.

(* The default options do not allow comments. *)
Theorem c36_default_rejects_comments : forall (s w rest : str) (ts : list atok),
  lexes (dia ropts_default) (s ++ w ++ 47 :: 47 :: rest) ts (w ++ 47 :: 47 :: rest) -> Forall tok_int64 ts ->
  blank (dia ropts_default) w ->
  exists r r',
    observe (length ts) (reader_init ropts_default (s ++ w ++ 47 :: 47 :: rest)) = Ok (ts, r) /\ rerr r = None /\
    next_tok r = Ok (TEOS, r') /\ exists line pos, rerr r' = Some (mkErr line pos EComment).
Proof.
  intros s w rest ts Hl Hi Hw.
  destruct (c36_comments_rejected ropts_default s w rest ts eq_refl Hl Hi Hw) as (r & r' & A & B & C & _ & D). exists r, r'. auto.
Qed.
Print Assumptions c36_default_rejects_comments.

Example c36_comment_example :
  lexes (dia ropts_default) (lit "[" ++ lit " " ++ 47 :: 47 :: lit "x") [AArrS] (lit " " ++ 47 :: 47 :: lit "x") /\
  blank (dia ropts_default) (lit " ") /\
  exists r, observe 1 (reader_init ropts_default (lit "[ //x")) = Ok ([AArrS], r) /\
    exists t r', next_tok r = Ok (t, r') /\ rerr r' = Some (mkErr 1 4 EComment).
Proof.
  split.
  { change (lit "[" ++ lit " " ++ 47 :: 47 :: lit "x") with ([] ++ lit "[" ++ (lit " " ++ 47 :: 47 :: lit "x")).
    constructor; [constructor|constructor|intros []|constructor]. }
  split; [apply bl_space; [now left|constructor]|].
  eexists. split; [vm_compute; reflexivity|]. do 2 eexists. split; vm_compute; reflexivity.
Qed.
