(* PropJsonGraph.v - C84: JSON and objects reached through pointers. *)
From Coq Require String. Import String.StringSyntax.
From Verif Require Import Base Dec ModelJson ModelJsonW ModelJsonT SpecJson SpecJsonT ProofJson1 ProofJson2 PropJsonDoc ProofUMap ModelJsonH SpecJsonH ProofJsonH1 ProofJsonH2 ProofJsonH3.
Local Open Scope outcome_scope.

(* ==== C84 ==== *)
(* Printing: an object whose pointers can be followed to the end is printed as the value it
   stands for, whether or not some objects are met more than once (F is any list). *)
Theorem c84_print_graph : forall (fuel : nat) (o : wopts) (e : env) (t : nat) (m : store) (h : hval) (v : val) (F : list nat),
  env_built e -> sees e m t h v F -> print_graph fuel o e t m h = print_text fuel o e t v.
Proof.
  intros fuel o e t m h v F He Hs. unfold print_graph, print_text. destruct (init_printer fuel e t []); cbn [bind]; auto.
  now rewrite (print_sees e m fuel He t h v F).
Qed.
Print Assumptions c84_print_graph.

(* Reading into a tree: the outcome is that of reading into the value it stands for, the
   object then is a tree that stands for the value read, made of objects it was made of
   before and of new ones, and no other object has changed. *)
Theorem c84_parse_tree : forall (fuel : nat) (o : ropts) (e : env) (t a : nat) (m : store) (v : val) (F : list nat) (s : str),
  env_built e -> tree e m t a v F ->
  (forall m' r, parse_graph fuel o e t a m s = Ok (m', r) ->
    exists v' F', parse_text fuel o e t v s = Ok (v', r) /\ tree e m' t a v' F' /\
      (forall b, In b F' -> In b F \/ length m <= b) /\
      (forall b, b < length m -> b <> a -> ~ In b F -> nth_error m' b = nth_error m b) /\ length m <= length m') /\
  (forall v' r, parse_text fuel o e t v s = Ok (v', r) -> exists m', parse_graph fuel o e t a m s = Ok (m', r)) /\
  (parse_graph fuel o e t a m s = Abort <-> parse_text fuel o e t v s = Abort).
Proof.
  intros fuel o e t a m v F s He (h & Hh & Hs & N1 & N2).
  assert (G : good e t a [] m v F).
  { unfold good. cbn [hget at_path]. rewrite (nth_cell _ _ _ Hh). repeat split; auto. now apply nth_some_lt in Hh. }
  pose proof (refines_all e He fuel t a [] m (reader_init o s) v F G) as R. unfold parse_graph, parse_text.
  destruct (init_parser fuel e t []); cbn [bind]; try (repeat split; intros; discriminate).
  destruct (parse_h fuel e t (a, []) m (reader_init o s)) as [[[m2 mv] r2]| | | |], (parse_t fuel e t v (reader_init o s)) as [[[v2 mv'] r2']| | | |];
    try contradiction R; cbn [bind]; try (repeat split; intros; (discriminate || reflexivity)).
  destruct R as (E1 & E2 & F' & x & X1 & X2 & X3 & X4 & X5 & X6 & X7). cbn [fst snd hset] in *. subst r2'. repeat split; try discriminate.
  - intros m' r [= <- <-]. exists v2, F'. repeat split; auto. exists x. auto.
  - intros v' r [= <- <-]. eauto.
Qed.
Print Assumptions c84_parse_tree.

(* A text that does not start with null, read into a pointer that leads to a tree: the
   pointer and the object it is a member of stay as they are, the text is read into the
   object pointed to. *)
Theorem c84_pointee_updated_in_place : forall (fuel : nat) (e : env) (t i : nat) (sm : bool) (a b : nat) (p : list str) (m m' : store)
    (mv : bool) (r r' r1 : reader) (tk : token) (v : val) (F : list nat),
  env_built e -> nth_error e t = Some (DPtr sm i) ->
  lget m (a, p) = HP (Some b) -> tree e m i b v F -> a < length m -> a <> b -> ~ In a F ->
  peek_tok r = Ok (tk, r1) -> tk <> TNull ->
  parse_h (S fuel) e t (a, p) m r = Ok (m', mv, r') ->
  nth_error m' a = nth_error m a /\ lget m' (a, p) = HP (Some b) /\
  exists v' mv' F', parse_t fuel e i v r1 = Ok (v', mv', r') /\ tree e m' i b v' F'.
Proof.
  intros fuel e t i sm a b p m m' mv r r' r1 tk v F He Ht Hl (h & Hh & Hs & N1 & N2) La Ne Na Hp Htk H.
  cbn [parse_h] in H. rewrite Ht, Hp in H. cbn [bind] in H.
  replace (same_type tk TNull) with false in H by (destruct tk; auto; congruence). rewrite Hl in H.
  assert (G : good e i b [] m v F).
  { unfold good. cbn [hget at_path]. rewrite (nth_cell _ _ _ Hh). repeat split; auto. now apply nth_some_lt in Hh. }
  pose proof (refines_all e He fuel i b [] m r1 v F G) as R.
  destruct (parse_h fuel e i (b, []) m r1) as [[[m2 mv2] r2]| | | |], (parse_t fuel e i v r1) as [[[v2 mv'] r2']| | | |]; try contradiction R; try discriminate H.
  cbn [bind] in H. injection H as <- <- <-. destruct R as (E1 & E2 & F' & x & X1 & X2 & X3 & X4 & X5 & X6 & X7). cbn [fst snd hset] in *. subst r2'.
  assert (Ea : nth_error m2 a = nth_error m a) by auto. split; [exact Ea|]. split.
  - unfold lget, cell in *. cbn [fst snd] in *. now rewrite Ea.
  - exists v2, mv', F'. split; auto. exists x. auto.
Qed.
Print Assumptions c84_pointee_updated_in_place.

(* Any graph, sharing and cycles included: whatever cannot be reached from the object read
   into is not changed, and nothing that was out of reach comes within reach. *)
Theorem c84_only_reachable_changes : forall (fuel : nat) (o : ropts) (e : env) (t a : nat) (m m' : store) (s : str) (r : reader) (A : nat -> Prop),
  closed m A -> A a -> parse_graph fuel o e t a m s = Ok (m', r) ->
  (forall b, b < length m -> ~ A b -> nth_error m' b = nth_error m b) /\
  closed m' (fun b => A b \/ length m <= b).
Proof.
  intros fuel o e t a m m' s r A C Ha H. unfold parse_graph in H. destruct (init_parser fuel e t []); try discriminate H. cbn [bind] in H.
  assert (K : safe (fun b => A b \/ length m <= b) m (parse_h fuel e t (a, []) m (reader_init o s))).
  { apply parse_keeps; [|intros b Hb; now right|now left]. intros x h b [Hx|Hx] E Hb.
    - left. eapply C; eauto.
    - apply nth_some_lt in E. lia. }
  destruct (parse_h fuel e t (a, []) m (reader_init o s)) as [[[m2 mv] r2]| | | |]; try discriminate H. cbn [bind] in H. injection H as <- <-.
  destruct K as (K1 & K2 & K3). split; [|exact K2]. intros b Hb Nb. apply K1. intros [K|K]; [auto|lia].
Qed.
Print Assumptions c84_only_reachable_changes.

(* Printing a graph and reading the text into a new object: the new object is a tree that
   stands for the same value, made of new objects only, and no object has changed. *)
Theorem c84_round_trip : forall (wo : wopts) (o : ropts) (e : env) (t : nat) (m : store) (h : hval) (v : val) (F : list nat),
  env_built e -> sees e m t h v F ->
  env_ok e -> no_void e -> SpecJsonT.typed e t v -> restores e (w_compact wo) t (dval e t) v ->
  names_ok (str_ok wo (dia o)) e -> all_strings (str_ok wo (dia o)) v ->
  (w_pretty wo = true -> (vdepth v <= 1024)%nat) ->
  exists text steps, forall fuel, steps <= fuel ->
    print_graph fuel wo e t m h = Ok (text, false) /\
    let (a, m1) := new_object e t m in
    exists m' r F', parse_graph fuel o e t a m1 text = Ok (m', r) /\ rerr r = None /\ rin r = [] /\
      tree e m' t a v F' /\ length m <= a /\ (forall b, In b F' -> length m <= b) /\
      (forall b, b < length m -> nth_error m' b = nth_error m b).
Proof.
  intros wo o e t m h v F He Hs Ho Hv Hty Hr Hn Ha Hd.
  assert (Dt : exists d, nth_error e t = Some d) by (inversion Hs; eauto). destruct Dt as [d Dt].
  assert (Lt : t < length e) by (apply nth_error_Some; congruence).
  destruct (c40_round_trip_any_target wo o e t v (dval e t) Ho Hv Lt Hty Hr Hn Ha Hd) as (text & steps & K).
  exists text, steps. intros fuel Hf. destruct (K fuel Hf) as (P1 & r & P2 & P3 & P4). rewrite (c84_print_graph fuel wo e t m h v F He Hs). split; auto.
  destruct (new_object_sees e t m (proj1 (He _ _ Dt))) as (n & F0 & h0 & E & S0 & N1 & L). rewrite E.
  assert (Lm : nth_error (m ++ n ++ [h0]) (length (m ++ n)) = Some h0) by (rewrite app_assoc; apply nth_snoc).
  assert (T : tree e (m ++ n ++ [h0]) t (length (m ++ n)) (dval e t) F0).
  { exists h0. repeat split; auto. intro I1. apply L in I1. lia. }
  destruct (c84_parse_tree fuel o e t _ _ _ _ text He T) as (Q1 & Q2 & _). destruct (Q2 _ _ P2) as [m' Q3]. destruct (Q1 _ _ Q3) as (v' & F' & Q4 & Q5 & Q6 & Q7 & Q8).
  rewrite P2 in Q4. injection Q4 as <-. exists m', r, F'. repeat split; auto.
  - rewrite app_length. lia.
  - intros b Hb. destruct (Q6 b Hb) as [I1|I1]; [apply L in I1; lia|rewrite app_length in I1; lia].
  - intros b Hb. rewrite Q7.
    + now apply nth_app.
    + rewrite app_length. lia.
    + rewrite app_length. lia.
    + intro I1. apply L in I1. lia.
Qed.
Print Assumptions c84_round_trip.

(* ---- examples ---- *)
(* struct Node { int64_t id; std::shared_ptr<Node> left, right; } *)
Definition node_env : env :=
  [DObj [mkF (lit "id") 1 false [] false; mkF (lit "left") 2 false [] false; mkF (lit "right") 2 false [] false]
        [(lit "id", VInt 0); (lit "left", VPtr None); (lit "right", VPtr None)];
   DInt true; DPtr true 0].
Definition node (z : Z) (l r : option nat) : hval := HO [(lit "id", HV (VInt z)); (lit "left", HP l); (lit "right", HP r)].
Definition vnode (z : Z) (l r : option val) : val := VObj [(lit "id", VInt z); (lit "left", VPtr l); (lit "right", VPtr r)].
Lemma node_names {V} (x y z : V) fs ini : nth_error node_env 0 = Some (DObj fs ini) -> same_names fs [(lit "id", x); (lit "left", y); (lit "right", z)].
Proof. intros [= <- _] k. cbn. tauto. Qed.
Lemma node_built : env_built node_env.
Proof.
  intros t d H. destruct t as [|[|[|t]]]; cbn in H; try (destruct t; discriminate); injection H as <-.
  - split.
    + eapply bu_obj; [reflexivity|now eapply node_names|].
      apply bp_cons with 1; [eexists; cbn; split; [left; reflexivity|auto]|eapply bu_scalar; [reflexivity|exact Logic.I|exact Logic.I]|].
      apply bp_cons with 2; [eexists; cbn; split; [right; left; reflexivity|auto]|eapply bu_null; reflexivity|].
      apply bp_cons with 2; [eexists; cbn; split; [right; right; left; reflexivity|auto]|eapply bu_null; reflexivity|].
      constructor.
    + cbn. repeat constructor; cbn; intuition discriminate.
  - split; auto. eapply bu_scalar; [reflexivity|exact Logic.I|exact Logic.I].
  - split; auto. eapply bu_null. reflexivity.
Qed.
Definition sees_opt (m : store) (p : option nat) (v : option val) (F : list nat) : Prop := sees node_env m 2 (HP p) (VPtr v) F.
Lemma node_sees m z l r vl vr F G : sees_opt m l vl F -> sees_opt m r vr G -> sees node_env m 0 (node z l r) (vnode z vl vr) ([] ++ F ++ G ++ []).
Proof.
  intros H1 H2. eapply se_obj; [reflexivity|now eapply node_names|].
  apply sp_cons with 1; [eexists; cbn; split; [left; reflexivity|auto]|eapply se_scalar; [reflexivity|exact Logic.I]|].
  apply sp_cons with 2; [eexists; cbn; split; [right; left; reflexivity|auto]|auto|].
  apply sp_cons with 2; [eexists; cbn; split; [right; right; left; reflexivity|auto]|auto|].
  constructor.
Qed.
Lemma sees_none m : sees_opt m None None [].
Proof. eapply se_null. reflexivity. Qed.
Lemma sees_some m a h v F : nth_error m a = Some h -> sees node_env m 0 h v F -> sees_opt m (Some a) (Some v) (a :: F).
Proof. intros. eapply se_ptr; eauto. reflexivity. Qed.

(* a root whose two members lead to one node *)
Definition shared : store := [node 1 (Some 1) (Some 1); node 5 None None].
Definition leaf5 : val := vnode 5 None None.
Lemma shared_sees : sees node_env shared 0 (node 1 (Some 1) (Some 1)) (vnode 1 (Some leaf5) (Some leaf5)) [1; 1].
Proof.
  apply (node_sees shared 1 (Some 1) (Some 1) (Some leaf5) (Some leaf5) [1] [1]);
    (apply sees_some with (h := node 5 None None); [reflexivity|]; apply (node_sees shared 5 None None None None [] []); apply sees_none).
Qed.
(* a tree: the same with two nodes, and an object on its own *)
Definition apart : store := [node 1 (Some 1) (Some 2); node 5 None None; node 5 None None; node 8 None None].
Lemma apart_tree : tree node_env apart 0 0 (vnode 1 (Some leaf5) (Some leaf5)) [1; 2].
Proof.
  exists (node 1 (Some 1) (Some 2)). split; [reflexivity|]. split; [|split; [repeat constructor; cbn; intuition lia|cbn; intuition lia]].
  apply (node_sees apart 1 (Some 1) (Some 2) (Some leaf5) (Some leaf5) [1] [2]);
    (apply sees_some with (h := node 5 None None); [reflexivity|]; apply (node_sees apart 5 None None None None [] []); apply sees_none).
Qed.
Definition q (s : str) : str := [34%N] ++ s ++ [34%N].
(* {"left":{"id":6},"right":{"left":{}}} *)
Definition two_parts : str :=
  lit "{" ++ q (lit "left") ++ lit ":{" ++ q (lit "id") ++ lit ":6}," ++ q (lit "right") ++ lit ":{" ++ q (lit "left") ++ lit ":{}}}".
Example c84_example_tree : exists r, parse_graph 30 ropts_default node_env 0 0 apart two_parts =
    Ok ([node 1 (Some 1) (Some 2); node 6 None None; node 5 (Some 4) None; node 8 None None; node 0 None None], r) /\ rerr r = None.
Proof. eexists. split; vm_compute; reflexivity. Qed.
Example c84_example_print : exists text,
  print_graph 30 (mkWO false true true true) node_env 0 shared (node 1 (Some 1) (Some 1)) = Ok (text, false) /\
  text = lit "{" ++ q (lit "id") ++ lit ":1," ++ q (lit "left") ++ lit ":{" ++ q (lit "id") ++ lit ":5}," ++
         q (lit "right") ++ lit ":{" ++ q (lit "id") ++ lit ":5}}".
Proof. eexists. split; vm_compute; reflexivity. Qed.
(* c84_only_reachable_changes applies to a cyclic graph: 0 and 1 lead to each other *)
Definition cyclic : store := [node 1 (Some 1) None; node 2 (Some 0) None; node 9 (Some 0) None].
Example c84_example_cyclic : closed cyclic (fun b => b < 2) /\ exists m' r,
  parse_graph 30 ropts_default node_env 0 0 cyclic two_parts = Ok (m', r) /\
  m' = [node 1 (Some 1) (Some 3); node 6 (Some 0) None; node 9 (Some 0) None; node 0 (Some 4) None; node 0 None None].
Proof.
  split.
  - intros a h b Ha E Hb. destruct a as [|[|a]]; [| |lia]; cbn in E; injection E as <-; cbn in Hb; lia.
  - eexists. eexists. split; vm_compute; reflexivity.
Qed.

(* the hypotheses of c84_round_trip hold of [shared] *)
Definition nopts : wopts := wopts_default.
Lemma node_typed z l r : int64 z -> (forall x, l = Some x -> SpecJsonT.typed node_env 0 x) -> (forall x, r = Some x -> SpecJsonT.typed node_env 0 x) ->
  SpecJsonT.typed node_env 0 (vnode z l r).
Proof.
  intros Hz Hl Hr. eapply ty_obj; [reflexivity| |reflexivity|].
  - cbn. repeat (constructor; [cbn; intuition discriminate|]). constructor.
  - intros f x Hf Hx. repeat (destruct Hf as [<-|Hf]; [cbn in Hx; injection Hx as <-|]); [now apply ty_int| | |destruct Hf].
    + destruct l as [y|]; [eapply ty_ptr; [reflexivity|auto]|eapply ty_null; reflexivity].
    + destruct r as [y|]; [eapply ty_ptr; [reflexivity|auto]|eapply ty_null; reflexivity].
Qed.
Lemma node_restores z0 z l r : (forall x, l = Some x -> restores node_env false 0 (dval node_env 0) x /\ x <> VPtr None) ->
  (forall x, r = Some x -> restores node_env false 0 (dval node_env 0) x /\ x <> VPtr None) ->
  restores node_env false 0 (vnode z0 None None) (vnode z l r).
Proof.
  intros Hl Hr. eapply rs_obj; [reflexivity|reflexivity|].
  intros f x x0 Hf Hx Hx0. repeat (destruct Hf as [<-|Hf]; [cbn in Hx, Hx0; injection Hx as <-; injection Hx0 as <-|]); [| | |destruct Hf];
    (split; [intro K; exfalso; revert K; unfold omitted; cbn; intuition discriminate|intros _]).
  - now apply rs_int.
  - destruct l as [y|]; [destruct (Hl y eq_refl); eapply rs_ptr; [reflexivity|auto|auto]|eapply rs_null; reflexivity].
  - destruct r as [y|]; [destruct (Hr y eq_refl); eapply rs_ptr; [reflexivity|auto|auto]|eapply rs_null; reflexivity].
Qed.
Example c84_example_round_trip : exists text steps, forall fuel, steps <= fuel ->
    print_graph fuel nopts node_env 0 shared (node 1 (Some 1) (Some 1)) = Ok (text, false) /\
    let (a, m1) := new_object node_env 0 shared in
    exists m' r F', parse_graph fuel ropts_default node_env 0 a m1 text = Ok (m', r) /\ rerr r = None /\ rin r = [] /\
      tree node_env m' 0 a (vnode 1 (Some leaf5) (Some leaf5)) F' /\ length shared <= a /\ (forall b, In b F' -> length shared <= b) /\
      (forall b, b < length shared -> nth_error m' b = nth_error shared b).
Proof.
  assert (T5 : SpecJsonT.typed node_env 0 leaf5) by (apply node_typed; [unfold int64; lia|discriminate|discriminate]).
  assert (R5 : restores node_env false 0 (dval node_env 0) leaf5) by (apply node_restores; discriminate).
  apply (c84_round_trip nopts ropts_default node_env 0 shared _ _ [1; 1] node_built shared_sees).
  - intros t d H. destruct t as [|[|[|t]]]; cbn in H; try (destruct t; discriminate); injection H as <-.
    + split; [cbn; repeat constructor; cbn; intuition discriminate|]. cbn. intros i Hi. intuition lia.
    + split; [exact Logic.I|intros i []].
    + split; [exact Logic.I|]. cbn. intros i [<-|[]]. lia.
  - intros t H. destruct t as [|[|[|t]]]; cbn in H; try discriminate. destruct t; discriminate.
  - apply node_typed; [unfold int64; lia| |]; intros x [= <-]; auto.
  - apply node_restores; intros x [= <-]; split; auto; discriminate.
  - intros t fs ini f H Hf. destruct t as [|[|[|t]]]; cbn in H; try (destruct t; discriminate); try discriminate.
    injection H as <- <-. repeat (destruct Hf as [<-|Hf]; [apply ascii_ok; reflexivity|]). destruct Hf.
  - assert (A5 : all_strings (str_ok nopts (dia ropts_default)) leaf5).
    { constructor. intros k x Hx. repeat (destruct Hx as [Hx|Hx]; [injection Hx as <- <-; constructor|]). destruct Hx. }
    constructor. intros k x Hx. repeat (destruct Hx as [Hx|Hx]; [injection Hx as <- <-; constructor; auto|]). destruct Hx.
  - discriminate.
Qed.

(* ---- what does not hold ---- *)
(* Reading into a graph that is not a tree is not reading into the value it stands for:
   what the document says of one member is also seen through the other. *)
Theorem c84_shared_refuted : exists m h v F s m' v' r r',
  nth_error m 0 = Some h /\ sees node_env m 0 h v F /\
  parse_graph 30 ropts_default node_env 0 0 m s = Ok (m', r) /\ rerr r = None /\
  parse_text 30 ropts_default node_env 0 v s = Ok (v', r') /\ rerr r' = None /\
  forall h' F', nth_error m' 0 = Some h' -> ~ sees node_env m' 0 h' v' F'.
Proof.
  set (s := lit "{" ++ q (lit "left") ++ lit ":{" ++ q (lit "id") ++ lit ":6}," ++ q (lit "right") ++ lit ":{" ++ q (lit "id") ++ lit ":7}}").
  exists shared, (node 1 (Some 1) (Some 1)), (vnode 1 (Some leaf5) (Some leaf5)), [1; 1], s. do 4 eexists.
  split; [reflexivity|]. split; [exact shared_sees|]. split; [vm_compute; reflexivity|]. split; [reflexivity|].
  split; [vm_compute; reflexivity|]. split; [reflexivity|].
  intros h' F' E K. cbn in E. injection E as <-.
  pose proof (c84_print_graph 30 wopts_default node_env 0 _ _ _ _ node_built K) as P. vm_compute in P. discriminate.
Qed.
Print Assumptions c84_shared_refuted.

(* Sharing is lost in a round trip: the text of [shared], read into a new object. *)
Theorem c84_sharing_lost_refuted : exists text m' r x y,
  print_graph 30 wopts_default node_env 0 shared (node 1 (Some 1) (Some 1)) = Ok (text, false) /\
  (let (a, m1) := new_object node_env 0 shared in parse_graph 30 ropts_default node_env 0 a m1 text = Ok (m', r)) /\
  nth_error m' 2 = Some (node 1 (Some x) (Some y)) /\ x <> y.
Proof.
  do 5 eexists. split; [vm_compute; reflexivity|]. split; [vm_compute; reflexivity|]. split; [reflexivity|]. lia.
Qed.
Print Assumptions c84_sharing_lost_refuted.

(* Printing an object that can be reached from itself never succeeds: it never ends, or,
   pretty printing, runs past the 4096 blanks for the indentation. *)
Definition stuck {A} (o : wopts) (x : outcome A) : Prop := x = OutOfFuel \/ (w_pretty o = true /\ x = UB).
Lemma stuck_bind {A B} o (x : outcome A) (f : A -> outcome B) : stuck o x -> stuck o (bind x f).
Proof. intros [->|[H ->]]; [now left|now right]. Qed.
Lemma newline_case w : werr w = false -> (w_pretty (wopt w) = true /\ wnewline w = UB) \/
  exists w', wnewline w = Ok w' /\ werr w' = false /\ wopt w' = wopt w.
Proof. intro H. unfold wnewline. destruct (w_pretty (wopt w)); [destruct (_ <? _)%N; [auto|]|]; right; eexists; repeat split; auto. Qed.
Lemma loop_stuck o pfn sfn w : werr w = false -> wopt w = o ->
  (forall w', sfn (lit "id") w' = OutOfFuel \/ sfn (lit "id") w' = Ok false) ->
  (forall w', sfn (lit "left") w' = OutOfFuel \/ sfn (lit "left") w' = Ok false) ->
  (forall w', werr w' = false -> wopt w' = o -> pfn (lit "id") w' = OutOfFuel \/
    exists w2, pfn (lit "id") w' = Ok w2 /\ werr w2 = false /\ wopt w2 = o) ->
  (forall w', werr w' = false -> wopt w' = o -> stuck o (pfn (lit "left") w')) ->
  stuck o (pobject_loop true [lit "id"; lit "left"; lit "right"] pfn sfn w).
Proof.
  intros E1 O1 S1 S2 P1 P2. cbn [pobject_loop]. unfold wok at 1. rewrite E1. cbn [negb].
  destruct (S1 w) as [->| ->]; [now left|]. cbn [bind].
  change (format_string (lit "id") w) with (Ok (push [34%N] (push [100%N] (push [105%N] (push [34%N] w))))). cbn [bind].
  match goal with |- context [pfn (lit "id") ?x] => destruct (P1 x) as [->|(w2 & -> & E2 & O2)] end;
    [unfold wspace; destruct (w_pretty _); exact E1|unfold wspace; destruct (w_pretty _); exact O1|now left|]. cbn [bind].
  unfold wok at 1. rewrite E2. cbn [negb]. destruct (S2 w2) as [->| ->]; [now left|]. cbn [bind].
  destruct (newline_case (push (lit ",") w2) E2) as [[P ->]|(w3 & -> & E3 & O3)]; [right; cbn in P; rewrite O2 in P; auto|]. cbn [bind]. cbn [wopt push] in O3.
  change (format_string (lit "left") w3) with (Ok (push [34%N] (push [116%N] (push [102%N] (push [101%N] (push [108%N] (push [34%N] w3))))))). cbn [bind].
  apply stuck_bind. apply P2; unfold wspace; destruct (w_pretty _); cbn; congruence.
Qed.
Definition on_cycle (h : hval) : Prop := h = node 1 (Some 1) None \/ h = node 2 (Some 0) None.
Lemma cycle_stuck n : forall h w, on_cycle h -> werr w = false -> stuck (wopt w) (print_h n node_env 0 cyclic h w).
Proof.
  induction n as [n IH] using (well_founded_induction lt_wf). intros h w Hh Hw. destruct n as [|n]; [now left|].
  assert (Hn : exists z a h', h = node z (Some a) None /\ (z =? 0)%Z = false /\ cell cyclic a = h' /\ on_cycle h').
  { destruct Hh as [->| ->]; [exists 1%Z, 1, (node 2 (Some 0) None)|exists 2%Z, 0, (node 1 (Some 1) None)]; repeat split; [now right|now left]. }
  destruct Hn as (z & a & h' & -> & Hz & Hc & Hh'). clear Hh. cbn [print_h]. change (nth_error node_env 0) with (Some (DObj
    [mkF (lit "id") 1 false [] false; mkF (lit "left") 2 false [] false; mkF (lit "right") 2 false [] false]
    [(lit "id", VInt 0); (lit "left", VPtr None); (lit "right", VPtr None)])). unfold node at 1. cbv iota.
  set (fs := [mkF (lit "id") 1 false [] false; _; _]). change (sorted_keys fs) with [lit "id"; lit "left"; lit "right"].
  unfold print_object. cbn [length Nat.ltb Nat.leb]. cbv zeta.
  destruct (newline_case (indent (push (lit "{") w)) Hw) as [[P ->]|(w1 & -> & E1 & O1)]; [now right|]. cbn [bind]. change (wopt (indent (push (lit "{") w))) with (wopt w) in O1.
  apply stuck_bind. apply loop_stuck; auto.
  - intro w'. destruct (negb _ && negb _); [now right|].
    change (find_last_alias fs (lit "id")) with (Some (mkF (lit "id") 1 false [] false)). destruct n; [now left|]. right. cbn. now rewrite Hz.
  - intro w'. destruct (negb _ && negb _); [now right|].
    change (find_last_alias fs (lit "left")) with (Some (mkF (lit "left") 2 false [] false)). destruct n; [now left|]. cbn. destruct n; [now left|]. right.
    rewrite Hc. destruct Hh' as [->| ->]; reflexivity.
  - intros w' E' O'. change (find_last_alias fs (lit "id")) with (Some (mkF (lit "id") 1 false [] false)). destruct n; [now left|]. right.
    exists (format_int z w'). repeat split; auto.
  - intros w' E' O'. change (find_last_alias fs (lit "left")) with (Some (mkF (lit "left") 2 false [] false)). cbv iota. cbn [f_type f_key].
    change (hget (node z (Some a) None) [lit "left"]) with (HP (Some a)). destruct n; [now left|]. cbn [print_h].
    change (nth_error node_env 2) with (Some (DPtr true 0)). cbv iota. rewrite Hc, <- O'. apply IH; auto.
Qed.
Theorem c84_cycle_refuted : forall (fuel : nat) (o : wopts),
  (forall x, print_graph fuel o node_env 0 cyclic (node 1 (Some 1) None) <> Ok x) /\
  (w_pretty o = false -> print_graph fuel o node_env 0 cyclic (node 1 (Some 1) None) = OutOfFuel).
Proof.
  intros fuel o. assert (K : stuck o (print_graph fuel o node_env 0 cyclic (node 1 (Some 1) None))).
  { unfold print_graph. destruct (init_printer fuel node_env 0 []) eqn:E; cbn [bind].
    - apply stuck_bind. apply (cycle_stuck fuel _ (writer_init o)); [now left|reflexivity].
    - exfalso. revert E. destruct fuel as [|[|[|[|fuel]]]]; vm_compute; discriminate.
    - exfalso. revert E. destruct fuel as [|[|[|[|fuel]]]]; vm_compute; discriminate.
    - exfalso. revert E. destruct fuel as [|[|[|[|fuel]]]]; vm_compute; discriminate.
    - now left. }
  destruct K as [->|[H ->]]; split; try discriminate; congruence.
Qed.
Print Assumptions c84_cycle_refuted.
