(* PropJsonAcc.v - C62, C63: what the reader takes for a document. *)
From Coq Require String. Import String.StringSyntax.
From Verif Require Import Base Dec ModelJson ModelJsonW ModelJsonT SpecJson SpecJsonT SpecJsonA ProofJson1 ProofJson3 ProofJson4 ProofJson5 ProofJsonA1 ProofJsonA3 ProofJsonA5 ProofJsonA6 ProofJsonA7 ProofJsonA8 ProofJsonA9 PropJsonStr PropJsonTok PropJsonDoc.
Local Open Scope outcome_scope.
Local Open Scope N_scope.

Lemma init_G o s : G o s [] (reader_init o s).
Proof. left. unfold reader_init. exists false, 1, 1. split; [reflexivity|discriminate]. Qed.

(* ==== C62 ==== *)
(* Skipping a value of any text: if no error is reported, the text starts with a document
   and exactly that document was taken, or the text ended early. *)
Theorem c62_skipped_was_a_document : forall (fuel : nat) (o : ropts) (s : str) (r : reader),
  byte_string s -> skip fuel (reader_init o s) = Ok r -> rerr r = None ->
  (exists j, doc_text (dia o) j s (rin r)) \/ unfinished (dia o) s.
Proof.
  intros fuel o s r Hb X He. destruct (skip_sound o _ _ _ X) as (_ & F). destruct (F _ _ (init_G o s) Hb) as (A & B).
  destruct (tri r) as [O1|[O1|O1]]; [| |now elim O1].
  - left. destruct (A O1) as (j & s' & b' & Ac & Hq). exists j. rewrite (Q_in _ _ _ _ _ Hq). exact Ac.
  - right. now apply B.
Qed.
Print Assumptions c62_skipped_was_a_document.

(* A text can be taken for a document in one way only. *)
Theorem c62_one_reading : forall (d : dialect) (j j' : json) (s rest rest' : str),
  doc_text d j s rest -> doc_text d j' s rest' -> j = j' /\ rest = rest'.
Proof. intros. eapply doc_unique; eauto. Qed.
Print Assumptions c62_one_reading.

(* Every JSON text is such a document. *)
Theorem c62_json_is_accepted : forall (d : dialect) (j : json) (s rest : str),
  json_text d j s rest -> doc_text d j s rest.
Proof. intros. now apply lexes_accepts. Qed.
Print Assumptions c62_json_is_accepted.

(* Every document is taken without an error, and nothing after it. *)
Theorem c62_documents_are_taken : forall (o : ropts) (j : json) (s rest : str),
  doc_text (dia o) j s rest ->
  exists steps, forall fuel, (steps <= fuel)%nat ->
  exists r, skip fuel (reader_init o s) = Ok r /\ rerr r = None /\ (rest <> [] \/ rok r = true -> rin r = rest).
Proof.
  intros o j s rest D. exists (S (jsize j)). intros fuel Hf. apply (skip_doc o j s rest [] _ D); [|lia].
  exists false, 1, 1. split; [reflexivity|discriminate].
Qed.
Print Assumptions c62_documents_are_taken.

(* So the texts that are skipped without an error are these and no others. *)
Theorem c62_exactly_these : forall (o : ropts) (s : str), byte_string s ->
  (exists fuel r, skip fuel (reader_init o s) = Ok r /\ rerr r = None) <->
  (exists j rest, doc_text (dia o) j s rest) \/ unfinished (dia o) s.
Proof.
  intros o s Hb. split.
  - intros (fuel & r & E & He). destruct (c62_skipped_was_a_document _ _ _ _ Hb E He) as [(j & D)|U]; eauto.
  - intros [(j & rest & D)|U].
    + destruct (c62_documents_are_taken _ _ _ _ D) as (n & H). destruct (H n (le_n n)) as (r & E & He & _). eauto.
    + apply (skip_unfinished o s [] _ U). exists false, 1, 1. split; [reflexivity|discriminate].
Qed.
Print Assumptions c62_exactly_these.

Example c62_example :
  exists r, skip 50 (reader_init ropts_default (lit " [1, {" ++ q (lit "a") ++ lit ":[ ]}, -0.5e3 ] tail")) = Ok r /\
    rerr r = None /\ rin r = lit " tail".
Proof. eexists. wit. Qed.

(* Texts that are no JSON but skipped without an error. *)
Theorem c62_only_json_refuted :
  let quiet s := exists r, skip 50 (reader_init ropts_default s) = Ok r /\ rerr r = None in
  quiet (lit "- ") /\ quiet (lit "1. ") /\ quiet (lit "-.5 ") /\ quiet (lit "[1e]") /\
  quiet (lit "[") /\ quiet (lit "{ ") /\ quiet (lit "[1") /\ quiet (lit "{12") /\ quiet [].
Proof. repeat split; eexists; split; vm_compute; reflexivity. Qed.
Print Assumptions c62_only_json_refuted.

(* ==== C63 ==== *)
Lemma short_read d e t v v' s : short d (fun j => reads e t v j v') s -> read_short d e t v v' s.
Proof. intros [w x j|w s1|w s1]; [eapply SpecJsonA.rs_number|eapply SpecJsonA.rs_array|eapply SpecJsonA.rs_object]; eauto. Qed.

(* Parsing any text into any target: if no error is reported, the text starts with a
   document, exactly that document was taken, and the target's new state is what the
   document says, or the text ended early. *)
Theorem c63_parsed_is_what_the_text_says : forall (fuel : nat) (o : ropts) (e : env) (t : nat) (v v' : val) (s : str) (r : reader),
  env_ok e -> env_shaped e -> shaped e t v -> byte_string s ->
  parse_text fuel o e t v s = Ok (v', r) -> rerr r = None ->
  (exists j, doc_text (dia o) j s (rin r) /\ reads e t v j v') \/ read_short (dia o) e t v v' s.
Proof.
  intros fuel o e t v v' s r Ee Es Sh Hb X He. unfold parse_text in X. apply bind_Ok in X as (c & _ & X).
  apply bind_Ok in X as ([[v1 mv] r1] & X1 & X). injection X as <- <-.
  destruct (t_sound o e Ee Es _ _ _ _ _ _ _ X1 Sh _ _ (init_G o s) Hb) as (A & B).
  destruct (tri r1) as [O1|[O1|O1]]; [| |now elim O1].
  - left. destruct (A O1) as (j & s' & b' & Ac & Rj & _ & Hq & _). exists j. rewrite (Q_in _ _ _ _ _ Hq). auto.
  - right. apply short_read. now apply B.
Qed.
Print Assumptions c63_parsed_is_what_the_text_says.

(* The state is determined by the text and the old state. *)
Theorem c63_determined : forall (d : dialect) (e : env) (t : nat) (v : val) (s rest1 rest2 : str) (j1 j2 : json) (v1 v2 : val),
  doc_text d j1 s rest1 -> doc_text d j2 s rest2 -> reads e t v j1 v1 -> reads e t v j2 v2 -> v1 = v2.
Proof.
  intros d e t v s rest1 rest2 j1 j2 v1 v2 D1 D2 R1 R2. destruct (doc_unique _ _ _ _ _ _ D1 D2) as (<- & _).
  eapply (proj1 (reads_det e)); eauto.
Qed.
Print Assumptions c63_determined.

(* The new state is again one of the type, so the next text can be parsed into it. *)
Theorem c63_target_stays_in_shape : forall (fuel : nat) (o : ropts) (e : env) (t : nat) (v v' : val) (s : str) (r : reader),
  env_ok e -> env_shaped e -> shaped e t v -> byte_string s ->
  parse_text fuel o e t v s = Ok (v', r) -> rok r = true -> shaped e t v'.
Proof.
  intros fuel o e t v v' s r Ee Es Sh Hb X Hok. unfold parse_text in X. apply bind_Ok in X as (c & _ & X).
  apply bind_Ok in X as ([[v1 mv] r1] & X1 & X). injection X as <- <-.
  destruct (t_sound o e Ee Es _ _ _ _ _ _ _ X1 Sh _ _ (init_G o s) Hb) as (A & _).
  destruct (A Hok) as (j & s' & b' & _ & _ & S & _). exact S.
Qed.
Print Assumptions c63_target_stays_in_shape.

(* the Box of PropJsonDoc *)
Lemma box_shape : env_ok box_env /\ env_shaped box_env /\ shaped box_env 0 (dval box_env 0).
Proof.
  assert (B : shaped box_env 0 (dval box_env 0)).
  { eapply sd_obj; [reflexivity|]. intros f [<-|[<-|[<-|[<-|[]]]]] _; (eexists; split; [vm_compute; reflexivity|]).
    - eapply sd_any; [reflexivity|exact I].
    - eapply sd_any; [reflexivity|exact I].
    - eapply sd_list; reflexivity.
    - eapply sd_map; [reflexivity|exact I]. }
  split; [apply box_simple|]. split; [|exact B].
  intros t d H. destruct t as [|[|[|[|[|[|t]]]]]]; cbn in H; try (destruct t; discriminate H); injection H as <-;
    (split; [|try exact I]).
  - exact B.
  - cbn [map f_key]. repeat constructor; cbn [In]; intuition discriminate.
  - eapply sd_any; [reflexivity|exact I].
  - eapply sd_any; [reflexivity|exact I].
  - eapply sd_list; reflexivity.
  - eapply sd_map; [reflexivity|exact I].
  - eapply sd_any; [reflexivity|exact I].
Qed.
Definition box_text : str :=
  lit "{" ++ q (lit "zz") ++ lit ":[null, 1e]," ++ q (lit "n") ++ lit ":" ++ q (lit "top") ++ lit " , " ++
  q (lit "in") ++ lit ":[{" ++ q (lit "size") ++ lit ":-7}]} tail".
Example c63_example :
  exists r, parse_text 50 ropts_default box_env 0 (dval box_env 0) box_text =
      Ok (box (lit "top") 0 [box [] (-7) [] []] [], r) /\ rerr r = None /\ rin r = lit " tail" /\ rok r = true.
Proof. eexists. wit. Qed.

(* A list cut off after its first element is read as the empty list, without an error. *)
Theorem c63_cut_list_refuted :
  exists r, parse_text 50 ropts_default [DList 1; DInt true] 0 (VList [VInt 5]) (lit "[1") = Ok (VList [VInt 5], r) /\ rerr r = None.
Proof. eexists. wit. Qed.
Print Assumptions c63_cut_list_refuted.
