(* PropJsonStack.v - C86: how deep reading nests. *)
From Coq Require String. Import String.StringSyntax.
From Verif Require Import Base Dec ModelJson ModelJsonW ModelJsonT SpecJson ProofJson1 ProofJson2 ProofJson3 ProofJson4 ProofJson5 ProofJson7 ModelJsonS SpecJsonS ProofJsonS1 ProofJsonS2 ProofJsonS3.
From Coq Require Import Lia.
Local Open Scope outcome_scope.
Local Open Scope nat_scope.

(* ==== C86 ==== *)
Lemma mr_init o s : mr (reader_init o s) = S (length s).
Proof. unfold mr. cbn. lia. Qed.
Lemma br_init o s : br (reader_init o s) = brackets s.
Proof. unfold br. change (rok (reader_init o s)) with true. cbn [reader_init rin rtok opens]. lia. Qed.

(* Any text, correct or not: a stack with room for the brackets the text opens (times the
   longest chain of pointers between two of them) is enough, and then reading is what it is
   without a limit. *)
Theorem c86_enough_stack : forall (e : env) (rank : nat -> nat) (K : nat), ptr_ranked e rank K ->
  forall (o : ropts) (t : nat) (v : val) (s : str) (d : nat),
  brackets s * (K + 1) + rank t + 1 < d ->
  parse_on d o e t v s <> OutOfFuel /\
  exists steps, forall fuel, steps <= fuel -> parse_text fuel o e t v s = parse_on d o e t v s.
Proof.
  intros e rank K He o t v s d Hd. unfold parse_on.
  destruct (init_parser_good e (S (length e)) t []) as [I1 _]; [rewrite fresh_nil; lia|].
  destruct (typed_b e rank K He d (length s + 3) t v (reader_init o s)) as [T1 _].
  { rewrite br_init. exact Hd. }
  { rewrite mr_init. lia. }
  { lia. }
  set (x := init_parser (S (length e)) e t []) in *.
  set (y := typed_s d (length s + 3) e t v (reader_init o s)) in *.
  split.
  - destruct x; cbn [bind]; try discriminate; [|contradiction].
    destruct y as [[[v' m] r]| | | |]; cbn [bind]; try discriminate. contradiction.
  - exists (S (length e) + (d + (length s + 3))). intros fuel Hf. unfold parse_text.
    rewrite (upto_use x (init_parser fuel e t [])); [|apply init_upto; lia|exact I1].
    rewrite (upto_use y (parse_t fuel e t v (reader_init o s))); [|apply typed_upto; lia|exact T1].
    reflexivity.
Qed.
Print Assumptions c86_enough_stack.

(* The same for skip, whose levels are the brackets alone. *)
Theorem c86_enough_stack_skip : forall (o : ropts) (s : str) (d : nat), brackets s < d ->
  skip_on d o s <> OutOfFuel /\
  exists steps, forall fuel, steps <= fuel -> skip fuel (reader_init o s) = skip_on d o s.
Proof.
  intros o s d Hd. unfold skip_on. destruct (skip_b d (length s + 3) (reader_init o s)) as [T1 _].
  { rewrite br_init. exact Hd. }
  { rewrite mr_init. lia. }
  { lia. }
  split; [exact T1|]. exists (d + (length s + 3)). intros fuel Hf. apply upto_use; [|exact T1]. apply skip_upto. lia.
Qed.
Print Assumptions c86_enough_stack_skip.

(* A correct document: skipping it takes exactly the levels it nests, not one less. *)
Theorem c86_skip_takes_the_depth : forall (o : ropts) (j : json) (s rest : str) (d : nat),
  json_text (dia o) j s rest ->
  (depth j <= d -> exists r, skip_on d o s = Ok r /\ rin r = rest /\ rerr r = None) /\
  (d < depth j -> skip_on d o s = OutOfFuel).
Proof.
  intros o j s rest d J. unfold skip_on.
  assert (HV : view o (toks j ++ []) rest (reader_init o s)).
  { rewrite app_nil_r. apply V_view, V_init, J. }
  assert (HN : jsize j <= length s + 3).
  { pose proof (jsize_toks j). pose proof (lexes_len _ _ _ _ J). unfold byte in *. lia. }
  destruct (skip_exact o rest j d (length s + 3) HN) as [A B]. split; intros Hd.
  - destruct (A Hd _ _ HV) as (r & E & W). exists r. apply V_end in W as (W1 & W2 & _). auto.
  - exact (B Hd _ _ HV).
Qed.
Print Assumptions c86_skip_takes_the_depth.

(* ---- no stack is enough for every document, whatever the class ---- *)
Lemma nest_depth n : depth (nest n) = S n.
Proof. induction n as [|n IH]; [reflexivity|]. cbn [nest depth map list_max fold_right]. rewrite IH. cbn. lia. Qed.
Lemma spells_x d k : spells d (repeat 120%N k) (repeat 120%N k).
Proof.
  induction k as [|k IH]; [constructor|].
  change (spells d ([120%N] ++ repeat 120%N k) ([120%N] ++ repeat 120%N k)). constructor; [|exact IH].
  apply sp_plain; cbn; congruence || lia.
Qed.
Lemma lexes_tok d t x s ts rest : tok_text d t x -> ~ is_num t -> lexes d s ts rest -> lexes d (x ++ s) (t :: ts) rest.
Proof.
  intros T N L. change (x ++ s) with ([] ++ x ++ s). constructor; [constructor|exact T| |exact L]. intros H. contradiction.
Qed.
Lemma nest_lexes d n : forall s ts rest, lexes d s ts rest ->
  lexes d (repeat 91%N (S n) ++ repeat 93%N (S n) ++ s) (toks (nest n) ++ ts) rest.
Proof.
  induction n as [|n IH]; intros s ts rest L.
  - change (lexes d (lit "[" ++ (lit "]" ++ s)) (AArrS :: AArrE :: ts) rest).
    apply lexes_tok; [constructor|intros []|]. apply lexes_tok; [constructor|intros []|exact L].
  - assert (E : repeat 91%N (S (S n)) ++ repeat 93%N (S (S n)) ++ s
              = lit "[" ++ (repeat 91%N (S n) ++ repeat 93%N (S n) ++ (lit "]" ++ s))).
    { change (repeat 91%N (S (S n))) with (lit "[" ++ repeat 91%N (S n)). rewrite <- app_assoc. f_equal. f_equal.
      change (lit "]") with [93%N]. change (repeat 93%N (S (S n))) with (93%N :: repeat 93%N (S n)). rewrite (repeat_cons (S n) 93%N), <- app_assoc. reflexivity. }
    rewrite E. clear E. change (nest (S n)) with (JArr [nest n]). rewrite toks_arr. unfold arr_toks. cbn [map sep_by app].
    apply lexes_tok; [constructor|intros []|]. rewrite <- app_assoc. apply IH. cbn [app].
    apply lexes_tok; [constructor|intros []|exact L].
Qed.
Lemma deep_json_text d k n : json_text d (deep_json k n) (deep_text k n) [].
Proof.
  unfold json_text, deep_json, deep_text. rewrite toks_obj. unfold obj_toks. cbn [map sep_by member_toks fst snd].
  assert (E : ([123; 34] ++ repeat 120 k ++ [34; 58] ++ repeat 91 (S n) ++ repeat 93 (S n) ++ [125])%N
     = lit "{" ++ ((34%N :: repeat 120%N k ++ [34%N]) ++ (lit ":" ++ (repeat 91%N (S n) ++ repeat 93%N (S n) ++ (lit "}" ++ []))))).
  { change (lit "{") with [123%N]. change (lit ":") with [58%N]. change (lit "}") with [125%N].
    cbn [app]. f_equal. f_equal. rewrite <- app_assoc. reflexivity. }
  rewrite E. clear E. apply lexes_tok; [constructor|intros []|]. unfold member_toks. cbn [fst snd].
  change ((AStr (repeat 120%N k) :: AKey :: toks (nest n)) ++ [AObjE]) with (AStr (repeat 120%N k) :: AKey :: toks (nest n) ++ [AObjE]).
  apply lexes_tok; [constructor; apply spells_x|intros []|].
  apply lexes_tok; [constructor|intros []|].
  apply nest_lexes. apply lexes_tok; [constructor|intros []|constructor].
Qed.
Lemma unknown_key fs : exists k, find_alias fs (repeat 120%N k) = None.
Proof.
  exists (S (list_max (map (fun f => length (f_name f)) (obj_fields fs)))).
  unfold find_alias. destruct (find _ (obj_fields fs)) as [f|] eqn:E; [|reflexivity]. exfalso.
  apply find_some in E as [I1 I2]. apply str_eqb_eq in I2.
  pose proof (list_max_in _ _ (in_map (fun f => length (f_name f)) _ _ I1)) as L. cbn beta in L.
  rewrite <- I2, repeat_length in L. lia.
Qed.

Theorem c86_no_stack_is_enough_refuted : forall (e : env) (t : nat) fs dv, nth_error e t = Some (DObj fs dv) ->
  (exists fuel c, init_parser fuel e t [] = Ok c) ->
  forall (o : ropts) (v : val) (d : nat), exists s j,
  json_text (dia o) j s [] /\
  parse_on d o e t v s = OutOfFuel /\
  exists d' r, parse_on d' o e t v s = Ok (VObj (obj_of v), r) /\ rin r = [] /\ rerr r = None.
Proof.
  intros e t fs dv Ht (fuel & c & Hi) o v d. destruct (unknown_key fs) as (k & Hk).
  set (s := deep_text k d). exists s, (deep_json k d). split; [apply deep_json_text|].
  destruct (init_parser_good e (S (length e)) t []) as [I1 _]; [rewrite fresh_nil; lia|].
  assert (Hi' : init_parser (S (length e)) e t [] = Ok c).
  { assert (NF : init_parser fuel e t [] <> OutOfFuel) by (rewrite Hi; discriminate).
    destruct (Nat.le_ge_cases fuel (S (length e))) as [L|L].
    - rewrite (upto_use _ _ (init_upto e fuel _ t [] L) NF). exact Hi.
    - rewrite <- (upto_use _ _ (init_upto e _ fuel t [] L) I1). exact Hi. }
  pose proof (deep_json_text (dia o) k d) as J.
  assert (HV : view o (obj_toks [(repeat 120%N k, toks (nest d))] ++ []) [] (reader_init o s)).
  { rewrite app_nil_r. apply V_view, V_init. exact J. }
  assert (HN : jsize (nest d) <= length s + 3).
  { pose proof (jsize_toks (deep_json k d)) as Q. pose proof (lexes_len _ _ _ _ J) as Q2.
    pose proof (jsize_in_obj [(repeat 120%N k, nest d)] _ (or_introl eq_refl)) as Q3. cbn [snd] in Q3.
    change (JObj [(repeat 120%N k, nest d)]) with (deep_json k d) in Q3. change (deep_text k d) with s in Q2.
    unfold byte in *. lia. }
  unfold parse_on. rewrite Hi'. cbn [bind]. split.
  - destruct d as [|d]; [reflexivity|]. cbn [typed_s]. rewrite Ht.
    erewrite parse_object_out; [reflexivity| |exact HV].
    apply fk_here. intros ts r W. rewrite Hk.
    destruct (skip_exact o [] (nest (S d)) d (length s + 3) HN) as [_ B].
    rewrite (B ltac:(rewrite nest_depth; lia) ts r W). reflexivity.
  - exists (S (S (S d))). cbn [typed_s]. rewrite Ht.
    destruct (@parse_object_view (list (str * val)) o [] (fun a o r =>
        match find_alias fs a with
        | None => do r' <- skip_s (S (S d)) (length s + 3) r; Ok (o, r')
        | Some fd =>
          do (x, _, r') <- typed_s (S (S d)) (length s + 3) e (f_type fd) (field_of (f_key fd) o) r;
          Ok (aset (f_key fd) x o, r')
        end) (obj_of v) [(repeat 120%N k, toks (nest d))] (obj_of v) [] (reader_init o s) (length s + 3)) as (r & E & W).
    + econstructor; [|constructor]. intros ts r W. rewrite Hk.
      destruct (skip_exact o [] (nest d) (S (S d)) (length s + 3) HN) as [A _].
      destruct (A ltac:(rewrite nest_depth; lia) ts r W) as (r' & E & W'). rewrite E. cbn [bind]. eauto.
    + exact HV.
    + cbn [length]. lia.
    + cbn [typed_s] in *. rewrite E. cbn [bind]. exists r. apply V_end in W as (W1 & W2 & _). auto.
Qed.
Print Assumptions c86_no_stack_is_enough_refuted.

(* The hypotheses are met: a flat class with one string; the document {"xxx":[[[]]]} needs
   four levels to be skipped, the value of its member three. *)
Definition flat_env : env := [DObj [mkF (lit "xx") 1 false [] false] [(lit "xx", VStr [])]; DStr].
Example c86_ranked : ptr_ranked flat_env (fun _ => 0) 0.
Proof.
  split; [intros; lia|]. intros t sm i H. destruct t as [|[|[|t]]]; cbn in H; discriminate.
Qed.
Example c86_init : exists c, init_parser 3 flat_env 0 [] = Ok c.
Proof. eexists. reflexivity. Qed.
Example c86_text : deep_text 3 2 = lit "{""xxx"":[[[]]]}".
Proof. reflexivity. Qed.
Example c86_depth : depth (deep_json 3 2) = 4 /\ brackets (deep_text 3 2) = 4. Proof. split; reflexivity. Qed.
Example c86_flat_3 : parse_on 3 ropts_default flat_env 0 (VObj [(lit "xx", VStr [])]) (deep_text 3 2) = OutOfFuel.
Proof. vm_compute. reflexivity. Qed.
Example c86_flat_4 : exists r, parse_on 4 ropts_default flat_env 0 (VObj [(lit "xx", VStr [])]) (deep_text 3 2) = Ok (VObj [(lit "xx", VStr [])], r) /\ rerr r = None.
Proof. vm_compute. eexists. split; reflexivity. Qed.
(* brackets in strings count for the bound of c86_enough_stack but not for the levels *)
Example c86_string : exists r, skip_on 1 ropts_default (lit """[[[[""") = Ok r /\ rerr r = None.
Proof. vm_compute. eexists. split; reflexivity. Qed.
