(* PropJsonAcc2.v - C63, the other direction: every document the target can take is read
   without an error, so the texts read are exactly the ones C63 names. *)
From Coq Require String. Import String.StringSyntax.
From Verif Require Import Base Dec ModelJson ModelJsonW ModelJsonT SpecJson SpecJsonT SpecJsonA ProofJson1 ProofJson3 ProofJsonT2 ProofJsonB3 PropJsonStr PropJsonTok PropJsonDoc PropJsonAcc.
Local Open Scope outcome_scope.

(* Every document whose content the target can take is read without an error, the target's
   new state is what the document says, and nothing after the document is taken. *)
Theorem c63_documents_are_read : forall (o : ropts) (e : env) (t : nat) (v v' : val) (j : json) (s rest : str),
  env_ok e -> t < length e -> doc_text (dia o) j s rest -> reads e t v j v' ->
  exists steps, forall fuel, steps <= fuel ->
  exists r, parse_text fuel o e t v s = Ok (v', r) /\ rerr r = None /\ (rest <> [] \/ rok r = true -> rin r = rest).
Proof. intros. eapply parse_doc; eauto. Qed.
Print Assumptions c63_documents_are_read.

Lemma shaped_lt e t v : shaped e t v -> t < length e.
Proof. intros H. apply nth_error_Some. destruct H; congruence. Qed.

(* So parsing ends without an error, with the state v', on exactly these texts. *)
Theorem c63_exactly_these : forall (o : ropts) (e : env) (t : nat) (v v' : val) (s : str),
  env_ok e -> env_shaped e -> shaped e t v -> byte_string s ->
  (exists fuel r, parse_text fuel o e t v s = Ok (v', r) /\ rerr r = None) <->
  (exists j rest, doc_text (dia o) j s rest /\ reads e t v j v') \/ read_short (dia o) e t v v' s.
Proof.
  intros o e t v v' s Ee Es Sh Hb. pose proof (shaped_lt _ _ _ Sh) as Ht. split.
  - intros (fuel & r & E & He). destruct (c63_parsed_is_what_the_text_says _ _ _ _ _ _ _ _ Ee Es Sh Hb E He) as [(j & D & R)|U]; eauto.
  - intros [(j & rest & D & R)|U].
    + destruct (c63_documents_are_read _ _ _ _ _ _ _ _ Ee Ht D R) as (n & H). destruct (H n (le_n n)) as (r & E & He & _). eauto.
    + eapply parse_short; eauto.
Qed.
Print Assumptions c63_exactly_these.

(* A document of the kind meant, and no strict JSON: a list whose numbers have parts without
   digits, into a list of doubles, and the rest of the text is left alone. *)
Example c63_exactly_these_ex :
  let e := [DList 1; DFloat true] in let s := lit " [ -.5 ,1.,2e ]x" in
  env_ok e /\ env_shaped e /\ shaped e 0 (VList []) /\ byte_string s /\
  exists r, parse_text 50 ropts_default e 0 (VList []) s = Ok (VList [VFloat (lit "-.5"); VFloat (lit "1."); VFloat (lit "2e")], r) /\
    rerr r = None /\ rin r = lit "x".
Proof.
  cbv zeta. split; [|split; [|split; [|split]]].
  - intros t d H. destruct t as [|[|t]]; cbn in H; try (destruct t; discriminate H); injection H as <-; cbn; auto.
    all: split; auto; intros x Hx; cbn in Hx; intuition lia.
  - intros t d H. destruct t as [|[|t]]; cbn in H; try (destruct t; discriminate H); injection H as <-; (split; [|exact I]).
    + eapply sd_list; reflexivity.
    + eapply sd_any; [reflexivity|exact I].
  - eapply sd_list; reflexivity.
  - repeat constructor; vm_compute; reflexivity.
  - eexists. wit.
Qed.
