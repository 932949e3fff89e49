(* ProofJsonT2.v - whole texts: initialisation of the parsers, numbers that end the
   text, and parse_text. *)
From Coq Require String. Import String.StringSyntax.
From Verif Require Import Base Dec ModelJson ModelJsonW ModelJsonT SpecJson SpecJsonT ProofJson1 ProofJson2 ProofJson3 ProofJson4 ProofJson5 ProofJson6 ProofJson7 ProofJson8 ProofJson9 ProofJson10 ProofJsonT1.
Local Open Scope outcome_scope.

Lemma no_dup_alias fs : NoDup (map json_name fs) -> dup_alias fs = false.
Proof.
  induction fs as [|f fs IH]; intro H; cbn [dup_alias]; auto. cbn [map] in H. inversion H as [|? ? A B]; subst.
  rewrite (IH B), orb_false_r. destruct (smem (f_name f) (map f_name fs)) eqn:E; auto. apply smem_In in E. contradiction.
Qed.

Definition fine_init (x : outcome (list nat)) : Prop := x = OutOfFuel \/ exists c, x = Ok c.
Lemma fine_fold {B : Type} (f : B -> list nat -> outcome (list nat)) l :
  (forall b c, In b l -> fine_init (f b c)) -> forall x, fine_init x ->
  fine_init (fold_left (fun acc b => do c <- acc; f b c) l x).
Proof.
  induction l as [|b l IH]; intros H x Hx; cbn [fold_left]; auto. apply IH.
  - intros b' c Hb. apply H. now right.
  - destruct Hx as [->|[c ->]]; cbn [bind]; [now left|apply H; now left].
Qed.
Lemma init_fine e : env_ok e -> forall fuel t c, t < length e -> fine_init (init_parser fuel e t c).
Proof.
  intro He. induction fuel as [|f IH]; intros t c Ht; [now left|]. cbn [init_parser].
  destruct (existsb _ c); [right; eauto|].
  destruct (nth_error e t) as [d|] eqn:E; [|apply nth_error_None in E; lia].
  destruct (He t d E) as [Hn Hr].
  destruct d; try (right; eauto; fail); try (apply IH; apply Hr; now left).
  cbn in Hn, Hr. fold (obj_fields fs) in Hn, Hr. rewrite (no_dup_alias _ Hn).
  apply fine_fold; [|right; eauto]. intros fd c' Hf. apply IH. apply Hr. now apply in_map.
Qed.
Lemma init_ok_steps e t : env_ok e -> t < length e -> exists n, forall fuel, n <= fuel -> exists c, init_parser fuel e t [] = Ok c.
Proof.
  intros He Ht. exists (S (length e)). intros fuel Hf.
  destruct (init_fine e He fuel t [] Ht) as [E|E]; auto.
  destruct (init_parser_good e fuel t []) as [H _]; [rewrite fresh_nil; lia|contradiction].
Qed.

(* ---- a number that ends the input ---- *)
Definition nview (o : ropts) (t : atok) (r : reader) : Prop :=
  (exists w x b, blank (dia o) w /\ tok_text (dia o) t x /\ R o (w ++ x) b TNone r) \/
  (exists b, Rend o b (tok_of t) r /\ payload t b).
Lemma Rend_set o b t t' r : Rend o b t r -> Rend o b t' (set_tok t' r).
Proof. intros (A & B & C & D & E & F). repeat split; auto. Qed.
Lemma nview_next o t r : is_num t -> nview o t r ->
  exists r' b, next_tok r = Ok (tok_of t, r') /\ Rend o b TNone r' /\ payload t b.
Proof.
  intros Hn [(w & x & b & Hw & Ht & Hr)|(b & Hr & Hp)]; unfold next_tok.
  - rewrite (R_tok _ _ _ _ _ Hr). cbn [same_type]. destruct (lex_num_end o w t x b r Hw Ht Hn Hr) as (r' & b' & H). eauto.
  - pose proof Hr as (_ & _ & _ & D & _). rewrite D, tok_not_none. exists (set_tok TNone r), b. split; [reflexivity|].
    split; auto. eapply Rend_set; eauto.
Qed.
Lemma nview_peek o t r : is_num t -> nview o t r -> exists r', peek_tok r = Ok (tok_of t, r') /\ nview o t r'.
Proof.
  intros Hn [(w & x & b & Hw & Ht & Hr)|(b & Hr & Hp)]; unfold peek_tok.
  - rewrite (R_tok _ _ _ _ _ Hr). cbn [same_type]. destruct (lex_num_end o w t x b r Hw Ht Hn Hr) as (r' & b' & E & K & P).
    rewrite E. cbn [bind]. eexists. split; [reflexivity|]. right. exists b'. split; auto. eapply Rend_set; eauto.
  - pose proof Hr as (_ & _ & _ & D & _). rewrite D, tok_not_none. exists r. split; [reflexivity|]. right. eauto.
Qed.
Definition done (r : reader) : Prop := rin r = [] /\ rerr r = None.
Lemma Rend_done o b t r : Rend o b t r -> done r. Proof. intros (A & B & _). split; auto. Qed.

Lemma int_end o z r : int64 z -> nview o (AInt z) r -> exists r', parse_int r = Ok (z, r') /\ done r'.
Proof.
  intros Hz H. destruct (nview_next _ (AInt z) _ I H) as (r' & b & E & K & P). exists r'.
  unfold parse_int, expect_tok. rewrite E. cbn [bind tok_of same_type as_int].
  pose proof K as (_ & _ & C & _). rewrite C, (stol_ok z b P Hz). cbn [bind]. split; [reflexivity|eapply Rend_done; eauto].
Qed.
Lemma float_end o x r : float_read x -> nview o (AFloat x) r -> exists r', parse_float r = Ok (x, r') /\ done r'.
Proof.
  intros Hx H. destruct (nview_next _ (AFloat x) _ I H) as (r' & b & E & K & P). exists r'.
  unfold parse_float, assert_tok. rewrite E. cbn [bind tok_of same_type as_float].
  pose proof K as (_ & _ & C & _). cbn [payload] in P. rewrite C, P, (stod_ok x Hx). cbn [bind]. split; [reflexivity|eapply Rend_done; eauto].
Qed.


Lemma reads_end o e t v j v' : reads e t v j v' -> is_number j ->
  exists n, forall f, n <= f -> forall r, nview o (ntok j) r ->
    exists r', parse_t f e t v r = Ok (v', false, r') /\ done r'.
Proof.
  induction 1; intro Hn; try contradiction.
  - exists 1. intros f Hf r Hr. destruct f; [lia|]. cbn [parse_t]. rewrite H.
    destruct (int_end _ _ _ H0 Hr) as (r' & E & D). rewrite E. cbn [bind]. eauto.
  - exists 1. intros f Hf r Hr. destruct f; [lia|]. cbn [parse_t]. rewrite H.
    destruct (float_end _ _ _ H0 Hr) as (r' & E & D). rewrite E. cbn [bind]. eauto.
  - destruct (IHreads Hn) as (n & IH). exists (S n). intros f Hf r Hr. destruct f; [lia|]. cbn [parse_t]. rewrite H.
    assert (Hnum : is_num (ntok j)) by (destruct j; try contradiction; exact I).
    destruct (nview_peek _ _ _ Hnum Hr) as (r1 & E & Hr1). rewrite E. cbn [bind].
    assert (Hns : same_type (tok_of (ntok j)) TNull = false) by (destruct j; try contradiction; reflexivity). rewrite Hns.
    destruct (IH f ltac:(lia) r1 Hr1) as (r2 & E2 & D). destruct p; rewrite E2; cbn [bind]; eauto.
  - exists 2. intros f Hf r Hr. destruct f as [|[|f]]; [lia|lia|]. cbn [parse_t]. rewrite H. cbn [parse_dyn].
    destruct j; try contradiction; inversion H0; subst; cbn [ntok] in Hr.
    + assert (Hr2 := Hr); apply nview_peek in Hr2 as (r1 & E & Hr1); [|exact I]. rewrite E. cbn [bind tok_of].
      destruct (int_end _ _ _ ltac:(eassumption) Hr1) as (r2 & E2 & D). rewrite E2. cbn [bind dyn_value]. eauto.
    + assert (Hr2 := Hr); apply nview_peek in Hr2 as (r1 & E & Hr1); [|exact I]. rewrite E. cbn [bind tok_of].
      destruct (float_end _ _ _ ltac:(eassumption) Hr1) as (r2 & E2 & D). rewrite E2. cbn [bind dyn_value]. eauto.
Qed.

(* ---- texts ---- *)
Lemma parse_text_ok o e t v j v' s rest : env_ok e -> t < length e -> reads e t v j v' -> whole_text (dia o) j s rest ->
  exists steps, forall fuel, steps <= fuel ->
    exists r, parse_text fuel o e t v s = Ok (v', r) /\ rerr r = None /\ rin r = rest.
Proof.
  intros He Ht Hr Hs. destruct (init_ok_steps e t He Ht) as (n1 & Hi).
  destruct Hs as [s rest Hs|w x Hn Hw Hx].
  - destruct (proj1 (reads_parses o e) _ _ _ _ Hr) as (n2 & Hp).
    exists (n1 + n2). intros fuel Hf. destruct (Hi fuel ltac:(lia)) as (c & Ec). unfold parse_text. rewrite Ec. cbn [bind].
    destruct (Hp fuel ltac:(lia) [] rest (reader_init o s)) as (mv & r & E & HV & _).
    { left. exists s, []. rewrite app_nil_r. split; [exists 1%N, 1%N; reflexivity|exact Hs]. }
    rewrite E. cbn [bind]. exists r. destruct (V_end _ _ _ HV) as (A & B & _). auto.
  - destruct (reads_end o e t v j v' Hr Hn) as (n2 & Hp).
    exists (n1 + n2). intros fuel Hf. destruct (Hi fuel ltac:(lia)) as (c & Ec). unfold parse_text. rewrite Ec. cbn [bind].
    destruct (Hp fuel ltac:(lia) (reader_init o (w ++ x))) as (r & E & D1 & D2).
    { left. exists w, x, []. split; [exact Hw|]. split; [exact Hx|exists 1%N, 1%N; reflexivity]. }
    rewrite E. cbn [bind]. exists r. auto.
Qed.
