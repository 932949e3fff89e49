(* PropJsonGen.v - C75, C76, C77: printing and parsing with callbacks, json traits. *)
From Coq Require String. Import String.StringSyntax.
From Verif Require Import Base Dec ModelJson ModelJsonW ModelJsonT ModelJsonG SpecJson SpecJsonT SpecJsonG ProofJson1 ProofJson2 ProofJson3 ProofJson4 ProofJson5 ProofJson6 ProofJson8 ProofJson9 ProofJson10 ProofJsonT1 PropJsonStr PropJsonTok ProofJsonT3 ProofJsonG.
Local Open Scope outcome_scope.

(* ==== C75 ==== *)
Lemma writes_tx {S : Type} wo d (fn : writer -> outcome (S * writer)) j s' : writes wo d fn j s' ->
  forall w, inv wo w -> room wo w (depth j) -> exists x, fn w = Ok (s', push x w) /\ tx d (is_number j) (toks j) x.
Proof.
  intros H w Hw Hr. destruct (H w Hw Hr) as (x & E & Hx). exists x. destruct Hw as (Ho & He). rewrite E. unfold push. rewrite Ho, He. split; [reflexivity|].
  intros rest ts' rest' Hs Hl. eapply lexes_app; [|exact Hl]. apply Hx. exact Hs.
Qed.
Lemma tx_writes {S : Type} wo d (fn : writer -> outcome (S * writer)) j s' :
  (forall w, inv wo w -> room wo w (depth j) -> exists x, fn w = Ok (s', push x w) /\ tx d (is_number j) (toks j) x) -> writes wo d fn j s'.
Proof.
  intros H w Hw Hr. destruct (H w Hw Hr) as (x & E & Hx). exists x. rewrite E. destruct Hw as (Ho & He). unfold push. rewrite Ho, He. split; [reflexivity|].
  intros rest Hs. unfold json_text. rewrite <- (app_nil_r (toks j)). apply Hx; [exact Hs|constructor].
Qed.
Lemma member_writes {S : Type} wo d (pfn : str -> S -> writer -> outcome (S * writer)) k s j s1 :
  str_ok wo d k -> writes wo d (pfn k s) j s1 -> forall w, inv wo w -> room wo w (depth j) ->
  exists x, member pfn k s w = Ok (s1, push x w) /\ tx d True (mtoks (k, j)) x.
Proof.
  intros Hk Hp w Hw Hr. unfold member. destruct (str_printed wo d k w Hk Hw) as (x & E & Hx). rewrite E. cbn [bind].
  destruct (wspace_ok wo d (push (lit ":") (push x w))) as (b & Eb & Hb); [now apply inv_push, inv_push|]. rewrite Eb.
  destruct (writes_tx _ _ _ _ _ Hp (push b (push (lit ":") (push x w)))) as (y & Ey & Hy); [now apply inv_push, inv_push, inv_push|exact Hr|].
  rewrite Ey, !push_push. eexists. split; [reflexivity|]. unfold mtoks. cbn [fst snd].
  change (lit ":") with [58%N]. rewrite <- ?app_assoc. cbn [app].
  change (AStr k :: AKey :: toks j) with ([AStr k] ++ AKey :: toks j).
  eapply tx_app; [apply tx_tok; exact Hx| |intros rest []].
  apply tx_sep_then; [reflexivity|]. apply tx_blank; [exact Hb|apply toks_nonempty|]. eapply tx_weak; [|exact Hy]. tauto.
Qed.
Lemma items_irun {S : Type} wo d (pfn : str -> S -> writer -> outcome (S * writer)) sfn s ks kjs s' :
  prints_items wo d pfn sfn s ks kjs s' -> (forall kj, In kj kjs -> str_ok wo d (fst kj)) -> irun wo d mtoks (member pfn) sfn s ks kjs s'.
Proof.
  induction 1 as [s|s k ks kjs s' Hs _ IH|s k j s1 ks kjs s' Hs Hp _ IH]; intro Hk; [constructor|constructor; auto|].
  econstructor; [exact Hs| |apply IH; intros kj Hj; apply Hk; now right]. intros w. apply member_writes; [|exact Hp]. apply (Hk (k, j)). now left.
Qed.
Definition ktoks {K : Type} (kj : K * json) : list atok := toks (snd kj).
Lemma items_irun_arr {S : Type} wo d (pfn : nat -> S -> writer -> outcome (S * writer)) sfn s ks kjs s' :
  prints_items wo d pfn sfn s ks kjs s' -> irun wo d ktoks pfn sfn s ks kjs s'.
Proof.
  induction 1 as [s|s k ks kjs s' Hs _ IH|s k j s1 ks kjs s' Hs Hp _ IH]; [constructor|constructor; auto|].
  econstructor; [exact Hs| |exact IH]. intros w Hw Hr. destruct (writes_tx _ _ _ _ _ Hp w Hw Hr) as (x & E & Hx). exists x. split; [exact E|].
  eapply tx_weak; [|exact Hx]. tauto.
Qed.
Lemma wrap_object {S : Type} keys (pfn : str -> S -> writer -> outcome (S * writer)) sfn s w :
  gprint_object keys pfn sfn s w = wrap [123%N] [125%N] (length keys) (gloop true keys (member pfn) sfn) s w.
Proof.
  unfold gprint_object, wrap. change (lit "{") with [123%N]. change (lit "}") with [125%N].
  destruct (if (1 <? length keys)%nat then _ else _) as [w1| | | |]; cbn [bind]; try reflexivity. now rewrite gobject_gloop.
Qed.
Lemma wrap_array {S : Type} n (pfn : nat -> S -> writer -> outcome (S * writer)) sfn s w :
  gprint_array n pfn sfn s w = wrap [91%N] [93%N] n (gloop true (seq 0 n) pfn sfn) s w.
Proof.
  unfold gprint_array, wrap. change (lit "[") with [91%N]. change (lit "]") with [93%N].
  destruct (if (1 <? n)%nat then _ else _) as [w1| | | |]; cbn [bind]; try reflexivity. now rewrite garray_gloop.
Qed.

(* printObject(writer, keys, printFn, skipFn): if, asked in order, skipFn leaves out some of
   the keys and printFn writes one document for each of the others, the whole call writes
   one document, the object of exactly these members in this order; the callbacks' own
   variables show that printFn was called once for each of them, in order.  Being again of
   the form writes, the call can be used as part of a printFn. *)
Theorem c75_object : forall (S : Type) (wo : wopts) (d : dialect)
    (pfn : str -> S -> writer -> outcome (S * writer)) (sfn : str -> S -> writer -> outcome bool)
    (s s' : S) (keys : list str) (kjs : list (str * json)),
  prints_items wo d pfn sfn s keys kjs s' -> (forall kj, In kj kjs -> str_ok wo d (fst kj)) ->
  writes wo d (gprint_object keys pfn sfn s) (JObj kjs) s'.
Proof.
  intros S wo d pfn sfn s s' keys kjs H Hk. apply tx_writes. intros w Hw Hr. rewrite wrap_object.
  pose (dd := fold_right (fun kv n => Nat.max (depth (snd kv)) n) 0 kjs). change (depth (JObj kjs)) with (Datatypes.S dd) in Hr.
  destruct (wrap_ok wo d mtoks (member pfn) sfn ltac:(discriminate) AObjS AObjE 123%N 125%N (length keys) s keys kjs s' dd eq_refl eq_refl) with (w := w) as (x & E & Hx); auto.
  - now apply items_irun.
  - intros kj Hj. pose proof (depth_obj kjs kj Hj) as L. change (depth (JObj kjs)) with (Datatypes.S dd) in L. lia.
  - exists x. split; [exact E|]. change (toks (JObj kjs)) with (AObjS :: sep_by (map mtoks kjs) ++ [AObjE]). eapply tx_weak; [|exact Hx]. intros [].
Qed.
Print Assumptions c75_object.

(* printArray(writer, n, printFn, skipFn), likewise for the indexes 0 to n - 1. *)
Theorem c75_array : forall (S : Type) (wo : wopts) (d : dialect)
    (pfn : nat -> S -> writer -> outcome (S * writer)) (sfn : nat -> S -> writer -> outcome bool)
    (s s' : S) (n : nat) (ijs : list (nat * json)),
  prints_items wo d pfn sfn s (seq 0 n) ijs s' ->
  writes wo d (gprint_array n pfn sfn s) (JArr (map snd ijs)) s'.
Proof.
  intros S wo d pfn sfn s s' n ijs H. apply tx_writes. intros w Hw Hr. rewrite wrap_array.
  pose (dd := fold_right (fun x n => Nat.max (depth x) n) 0 (map snd ijs)). change (depth (JArr (map snd ijs))) with (Datatypes.S dd) in Hr.
  destruct (wrap_ok wo d ktoks pfn sfn ltac:(intro; apply toks_nonempty) AArrS AArrE 91%N 93%N n s (seq 0 n) ijs s' dd eq_refl eq_refl) with (w := w) as (x & E & Hx); auto.
  - now apply items_irun_arr.
  - intros kj Hj. pose proof (depth_arr (map snd ijs) (snd kj) (in_map _ _ _ Hj)) as L. change (depth (JArr (map snd ijs))) with (Datatypes.S dd) in L. lia.
  - exists x. split; [exact E|]. rewrite toks_arr, map_map. unfold arr_toks. eapply tx_weak; [|exact Hx]. intros [].
Qed.
Print Assumptions c75_array.

(* When the callback of an element reports an error and more elements follow, printFn is
   not called for these and nothing more is written: the writer is as that callback left
   it. *)
Theorem c75_error_stops_object : forall (S : Type) (wo : wopts) (d : dialect)
    (pfn : str -> S -> writer -> outcome (S * writer)) (sfn : str -> S -> writer -> outcome bool)
    (s s1 s2 : S) (before after : list str) (k : str) (kjs : list (str * json)) (w : writer),
  prints_items wo d pfn sfn s before kjs s1 -> (forall kj, In kj kjs -> str_ok wo d (fst kj)) -> str_ok wo d k ->
  (forall w, fresh wo w -> sfn k s1 w = Ok false) ->
  (forall w, fresh wo w -> exists w', pfn k s1 w = Ok (s2, w') /\ werr w' = true) ->
  after <> [] -> fresh wo w -> fits wo w (depth (JObj kjs)) ->
  exists w0 w', fresh wo w0 /\ pfn k s1 w0 = Ok (s2, w') /\
    gprint_object (before ++ k :: after) pfn sfn s w = Ok (s2, w').
Proof.
  intros S wo d pfn sfn s s1 s2 before after k kjs w H Hk Hkk Hs He Ha Hw Hr. rewrite wrap_object. unfold wrap.
  pose (dd := fold_right (fun kv n => Nat.max (depth (snd kv)) n) 0 kjs). change (depth (JObj kjs)) with (Datatypes.S dd) in Hr.
  destruct (open_ok wo d (1 <? length (before ++ k :: after)) (push [123%N] w) dd (inv_push _ _ _ Hw) Hr) as (b1 & w1 & E1 & B1 & I1 & R1 & M1).
  rewrite E1. cbn [bind].
  destruct (gloop_stops wo d mtoks (member pfn) sfn s2 k _ _ _ _ (items_irun _ _ _ _ _ _ _ _ H Hk) true (push b1 w1) after) as (w0 & w' & I0 & E0 & E).
  - now apply inv_push.
  - intros kj Hj. eapply room_le; [exact R1|]. pose proof (depth_obj kjs kj Hj) as L. change (depth (JObj kjs)) with (Datatypes.S dd) in L. lia.
  - eapply room_le; [exact R1|lia].
  - exact Ha.
  - exact Hs.
  - intros w2 Hw2. unfold member. destruct (str_printed wo d k w2 Hkk Hw2) as (x & E & _). rewrite E. cbn [bind].
    destruct (wspace_ok wo d (push (lit ":") (push x w2))) as (b & Eb & _); [now apply inv_push, inv_push|]. rewrite Eb.
    apply He. now apply inv_push, inv_push, inv_push.
  - rewrite E. cbn [bind negb]. unfold member in E0. destruct (str_printed wo d k w0 Hkk I0) as (x & Ef & _). rewrite Ef in E0. cbn [bind] in E0.
    destruct (wspace_ok wo d (push (lit ":") (push x w0))) as (b & Eb & _); [now apply inv_push, inv_push|]. rewrite Eb in E0.
    exists (push b (push (lit ":") (push x w0))), w'. split; [now apply inv_push, inv_push, inv_push|]. auto.
Qed.
Print Assumptions c75_error_stops_object.

Theorem c75_error_stops_array : forall (S : Type) (wo : wopts) (d : dialect)
    (pfn : nat -> S -> writer -> outcome (S * writer)) (sfn : nat -> S -> writer -> outcome bool)
    (s s1 s2 : S) (i n : nat) (ijs : list (nat * json)) (w : writer),
  prints_items wo d pfn sfn s (seq 0 i) ijs s1 ->
  (forall w, fresh wo w -> sfn i s1 w = Ok false) ->
  (forall w, fresh wo w -> exists w', pfn i s1 w = Ok (s2, w') /\ werr w' = true) ->
  (Datatypes.S i < n)%nat -> fresh wo w -> fits wo w (depth (JArr (map snd ijs))) ->
  exists w0 w', fresh wo w0 /\ pfn i s1 w0 = Ok (s2, w') /\ gprint_array n pfn sfn s w = Ok (s2, w').
Proof.
  intros S wo d pfn sfn s s1 s2 i n ijs w H Hs He Ha Hw Hr. rewrite wrap_array. unfold wrap.
  pose (dd := fold_right (fun x n => Nat.max (depth x) n) 0 (map snd ijs)). change (depth (JArr (map snd ijs))) with (Datatypes.S dd) in Hr.
  destruct (open_ok wo d (1 <? n) (push [91%N] w) dd (inv_push _ _ _ Hw) Hr) as (b1 & w1 & E1 & B1 & I1 & R1 & M1).
  rewrite E1. cbn [bind].
  assert (Sq : exists after, seq 0 n = seq 0 i ++ i :: after /\ after <> []).
  { replace n with (i + Datatypes.S (Datatypes.S (n - i - 2)))%nat by lia. rewrite seq_app. cbn [seq]. exists (Datatypes.S (0 + i) :: seq (Datatypes.S (Datatypes.S (0 + i))) (n - i - 2)).
    split; [reflexivity|discriminate]. }
  destruct Sq as (after & Sq & Na). rewrite Sq.
  destruct (gloop_stops wo d ktoks pfn sfn s2 i _ _ _ _ (items_irun_arr _ _ _ _ _ _ _ _ H) true (push b1 w1) after) as (w0 & w' & I0 & E0 & E).
  - now apply inv_push.
  - intros kj Hj. eapply room_le; [exact R1|]. pose proof (depth_arr (map snd ijs) (snd kj) (in_map _ _ _ Hj)) as L. change (depth (JArr (map snd ijs))) with (Datatypes.S dd) in L. lia.
  - eapply room_le; [exact R1|lia].
  - exact Na.
  - exact Hs.
  - exact He.
  - rewrite E. cbn [bind negb]. eauto 6.
Qed.
Print Assumptions c75_error_stops_array.

(* The printers of printer.cpp (C40, C49) use the special case without state. *)
Definition ustate {K : Type} (pfn : K -> writer -> outcome writer) : K -> unit -> writer -> outcome (unit * writer) :=
  fun k _ w => do w' <- pfn k w; Ok (tt, w').
Lemma pobject_u pfn sfn : forall ks first w,
  gobject_loop first ks (ustate pfn) (fun k _ w => sfn k w) tt w = do (fin, w') <- pobject_loop first ks pfn sfn w; Ok (fin, tt, w').
Proof.
  induction ks as [|k ks IH]; intros first w; [reflexivity|]. cbn [gobject_loop pobject_loop]. destruct (negb (wok w)); [reflexivity|].
  destruct (sfn k w) as [sk| | | |]; cbn [bind]; try reflexivity. destruct sk; [apply IH|].
  destruct (if first then Ok w else wnewline (push (lit ",") w)) as [w1| | | |]; cbn [bind]; try reflexivity.
  destruct (format_string k w1) as [w2| | | |]; cbn [bind]; try reflexivity. unfold ustate at 1.
  destruct (pfn k _) as [w3| | | |]; cbn [bind]; try reflexivity. apply IH.
Qed.
Theorem c75_no_state_object : forall (keys : list str) (pfn : str -> writer -> outcome writer) (sfn : str -> writer -> outcome bool) (w : writer),
  gprint_object keys (ustate pfn) (fun k _ w => sfn k w) tt w = do w' <- print_object keys pfn sfn w; Ok (tt, w').
Proof.
  intros keys pfn sfn w. unfold gprint_object, print_object.
  destruct (if (1 <? length keys)%nat then _ else _) as [w1| | | |]; cbn [bind]; try reflexivity. rewrite pobject_u.
  destruct (pobject_loop true keys pfn sfn w1) as [[fin w2]| | | |]; cbn [bind]; try reflexivity. destruct fin; cbn [negb]; [|reflexivity].
  destruct (if (1 <? length keys)%nat then _ else _) as [w3| | | |]; reflexivity.
Qed.
Print Assumptions c75_no_state_object.
Lemma parray_u pfn : forall k first i w,
  garray_loop first i k (ustate pfn) (fun _ _ _ => Ok false) tt w = do (fin, w') <- parray_loop first i k pfn w; Ok (fin, tt, w').
Proof.
  induction k as [|k IH]; intros first i w; [reflexivity|]. cbn [garray_loop parray_loop]. destruct (negb (wok w)); [reflexivity|]. cbn [bind].
  destruct (if first then Ok w else wnewline (push (lit ",") w)) as [w1| | | |]; cbn [bind]; try reflexivity.
  unfold ustate at 1. destruct (pfn i w1) as [w3| | | |]; cbn [bind]; try reflexivity. apply IH.
Qed.
Theorem c75_no_state_array : forall (n : nat) (pfn : nat -> writer -> outcome writer) (w : writer),
  gprint_array n (ustate pfn) (fun _ _ _ => Ok false) tt w = do w' <- print_array n pfn w; Ok (tt, w').
Proof.
  intros n pfn w. unfold gprint_array, print_array.
  destruct (if (1 <? n)%nat then _ else _) as [w1| | | |]; cbn [bind]; try reflexivity. rewrite parray_u.
  destruct (parray_loop true 0 n pfn w1) as [[fin w2]| | | |]; cbn [bind]; try reflexivity. destruct fin; cbn [negb]; [|reflexivity].
  destruct (if (1 <? n)%nat then _ else _) as [w3| | | |]; reflexivity.
Qed.
Print Assumptions c75_no_state_array.

(* A callback that prints the index and counts its calls; odd indexes are left out. *)
Definition count_fn (i n : nat) (w : writer) : outcome (nat * writer) := Ok (Datatypes.S n, format_int (Z.of_nat i) w).
Definition odd_fn (i n : nat) (w : writer) : outcome bool := Ok (Nat.odd i).
Lemma int_writes {S : Type} wo d z (s' : S) : writes wo d (fun w => Ok (s', format_int z w)) (JInt z) s'.
Proof.
  apply tx_writes. intros w Hw _. exists (show_int z). split; [reflexivity|]. apply (tx_tok d (AInt z)). constructor. apply show_int_text.
Qed.
Example c75_example : forall wo d, writes wo d (gprint_array 4 count_fn odd_fn 7) (JArr [JInt 0; JInt 2]) 9.
Proof.
  intros wo d. apply (c75_array nat wo d count_fn odd_fn 7 9 4 [(0, JInt 0); (2, JInt 2)]). cbn [seq].
  eapply pi_show; [reflexivity|apply int_writes|]. apply pi_skip; [reflexivity|].
  eapply pi_show; [reflexivity|apply int_writes|]. apply pi_skip; [reflexivity|]. constructor.
Qed.
Example c75_example_text :
  gprint_object [lit "a"; lit "b"] (fun k l w => do (m, w') <- gprint_array 4 count_fn odd_fn 0 w; Ok (l ++ [k], w')) (fun k _ _ => Ok false) []
    (writer_init wopts_default) =
  Ok ([lit "a"; lit "b"], mkW (lit "{" ++ q (lit "a") ++ lit ":[0,2]," ++ q (lit "b") ++ lit ":[0,2]}") false 0 wopts_default).
Proof. vm_compute. reflexivity. Qed.

(* An error in the last element does not stop the printing: the closing bracket is written. *)
Theorem c75_last_error_refuted :
  let fail := fun (k : str) (n : nat) (w : writer) => Ok (Datatypes.S n, werror w) in
  gprint_object [lit "a"; lit "b"] fail (fun _ _ _ => Ok false) 0 (writer_init wopts_default) =
    Ok (1, mkW (lit "{" ++ q (lit "a") ++ lit ":") true 1 wopts_default) /\
  gprint_object [lit "a"] fail (fun _ _ _ => Ok false) 0 (writer_init wopts_default) =
    Ok (1, mkW (lit "{" ++ q (lit "a") ++ lit ":}") true 0 wopts_default).
Proof. split; vm_compute; reflexivity. Qed.
Print Assumptions c75_last_error_refuted.

(* ==== C76 ==== *)
(* parseArray(reader, fn) on a text of an array: fn is called once for each element, in
   order, with its index, and if it takes exactly that element then exactly the array is
   taken.  Again of the form takes, so it can be used as part of a callback. *)
Theorem c76_array : forall (S : Type) (o : ropts) (fn : nat -> S -> reader -> outcome (S * reader)) (s s' : S) (js : list json) (fuel : nat),
  takes_items o (dia o) fn 0 s js s' -> (length js <= fuel)%nat ->
  takes o (dia o) (parse_array fuel fn s) (JArr js) s'.
Proof.
  intros S o fn s s' js fuel H Hf rest r Hv. apply value_view in Hv. rewrite toks_arr in Hv.
  destruct (parse_array_view o rest fn s (map toks js) s' [] r fuel) as (r' & E & K); auto.
  - now apply items_chain.
  - intros it its' E. destruct js as [|x l]; [discriminate|]. cbn [map] in E. apply cons_inv in E as [<- _].
    destruct (toks_head x) as (t & ts' & E & Ht & _). eauto.
  - now rewrite map_length.
  - exists r'. split; [exact E|now apply V_reads].
Qed.
Print Assumptions c76_array.

(* parseObject(reader, fn): likewise with the keys of the members. *)
Theorem c76_object : forall (S : Type) (o : ropts) (fn : str -> S -> reader -> outcome (S * reader)) (s s' : S) (kjs : list (str * json)) (fuel : nat),
  takes_members o (dia o) fn s kjs s' -> (length kjs <= fuel)%nat ->
  takes o (dia o) (parse_object fuel fn s) (JObj kjs) s'.
Proof.
  intros S o fn s s' kjs fuel H Hf rest r Hv. apply value_view in Hv. rewrite toks_obj in Hv.
  destruct (parse_object_view o rest fn s (map (fun kv => (fst kv, toks (snd kv))) kjs) s' [] r fuel) as (r' & E & K); auto.
  - now apply members_chain.
  - now rewrite map_length.
  - exists r'. split; [exact E|now apply V_reads].
Qed.
Print Assumptions c76_object.

(* null in place of either: fn is not called. *)
Theorem c76_null : forall (S : Type) (o : ropts) (fn : nat -> S -> reader -> outcome (S * reader)) (gn : str -> S -> reader -> outcome (S * reader)) (s : S) (fuel : nat),
  takes o (dia o) (parse_array fuel fn s) JNull s /\ takes o (dia o) (parse_object fuel gn s) JNull s.
Proof.
  intros S o fn gn s fuel. split; intros rest r Hv; apply value_view in Hv.
  - destruct (parse_array_null o rest fn s [] r fuel Hv) as (r' & E & K). exists r'. split; [exact E|now apply V_reads].
  - destruct (parse_object_null o rest gn s [] r fuel Hv) as (r' & E & K). exists r'. split; [exact E|now apply V_reads].
Qed.
Print Assumptions c76_null.

(* The functions of the generic parser are such callbacks. *)
Theorem c76_int : forall (S : Type) (o : ropts) (f : Z -> S) (z : Z), (- 2 ^ 63 <= z < 2 ^ 63)%Z ->
  takes o (dia o) (fun r => do (x, r') <- parse_int r; Ok (f x, r')) (JInt z) (f z).
Proof.
  intros S o f z Hz rest r Hv. apply value_view in Hv. cbn [toks app] in Hv. unfold parse_int.
  destruct (expect_view _ _ _ _ _ TInt Hv eq_refl) as (r1 & E1 & K1 & P1). rewrite E1. cbn [bind tok_of]. cbn [payload] in P1. unfold as_int.
  rewrite (stol_ok z (rbuf r1) P1 Hz). cbn [bind]. exists r1. split; [reflexivity|now apply V_reads].
Qed.
Print Assumptions c76_int.
Theorem c76_string : forall (S : Type) (o : ropts) (f : str -> S) (v : str),
  takes o (dia o) (fun r => do (x, r') <- parse_string r; Ok (f x, r')) (JStr v) (f v).
Proof.
  intros S o f v rest r Hv. apply value_view in Hv. cbn [toks app] in Hv. unfold parse_string.
  destruct (expect_view _ _ _ _ _ TStr Hv eq_refl) as (r1 & E1 & K1 & P1). rewrite E1. cbn [bind tok_of as_string]. cbn [payload] in P1. rewrite P1.
  exists r1. split; [reflexivity|now apply V_reads].
Qed.
Print Assumptions c76_string.
Theorem c76_bool : forall (S : Type) (o : ropts) (f : bool -> S) (b : bool),
  takes o (dia o) (fun r => do (x, r') <- parse_bool r; Ok (f x, r')) (JBool b) (f b).
Proof.
  intros S o f b rest r Hv. apply value_view in Hv. cbn [toks app] in Hv. unfold parse_bool.
  destruct (expect_view _ _ _ _ _ (TBool true) Hv eq_refl) as (r1 & E1 & K1 & _). rewrite E1. cbn [bind tok_of as_bool].
  exists r1. split; [reflexivity|now apply V_reads].
Qed.
Print Assumptions c76_bool.
Theorem c76_skip : forall (S : Type) (o : ropts) (s : S) (j : json),
  exists steps, forall fuel, (steps <= fuel)%nat -> takes o (dia o) (fun r => do r' <- skip fuel r; Ok (s, r')) j s.
Proof.
  intros S o s j. exists (Datatypes.S (jsize j)). intros fuel Hf rest r Hv. apply value_view in Hv.
  destruct (skip_view o rest j [] r fuel Hv) as (r' & E & K); [lia|]. rewrite E. exists r'. split; [reflexivity|now apply V_reads].
Qed.
Print Assumptions c76_skip.

(* keys and sums of the number lists of an object *)
Definition sum_list (fuel : nat) (r : reader) : outcome (Z * reader) :=
  parse_array fuel (fun _ (n : Z) r => do (x, r') <- parse_int r; Ok ((n + x)%Z, r')) 0%Z r.
Example c76_example : forall o, takes o (dia o)
  (parse_object 9 (fun k l r => do (n, r') <- sum_list 9 r; Ok (l ++ [(k, n)], r')) [])
  (JObj [(lit "a", JArr [JInt 1; JInt 41]); (lit "b", JArr [])]) [(lit "a", 42%Z); (lit "b", 0%Z)].
Proof.
  intro o. apply c76_object; [|cbn; lia].
  assert (T : forall k l js n, takes_items o (dia o) (fun _ (n : Z) r => do (x, r') <- parse_int r; Ok ((n + x)%Z, r')) 0 0%Z js n -> (length js <= 9)%nat ->
    takes o (dia o) (fun r => do (n, r') <- sum_list 9 r; Ok (l ++ [(k, n)], r')) (JArr js) (l ++ [(k : str, n)])).
  { intros k l js n H L rest r Hv. destruct (c76_array _ o _ 0%Z n js 9 H L rest r Hv) as (r' & E & K). unfold sum_list. rewrite E. cbn [bind]. exists r'. split; [reflexivity|exact K]. }
  eapply (tm_cons o (dia o) _ [] (lit "a")); [apply (T (lit "a") [] [JInt 1; JInt 41] 42%Z); [|cbn; lia]|].
  - eapply ti_cons; [exact (c76_int Z o (fun x => (0 + x)%Z) 1 ltac:(lia))|]. eapply ti_cons; [exact (c76_int Z o (fun x => (1 + x)%Z) 41 ltac:(lia))|]. apply ti_nil.
  - eapply tm_cons; [apply (T (lit "b") _ [] 0%Z); [apply ti_nil|cbn; lia]|]. apply tm_nil.
Qed.

(* Without the colon, fn is called all the same, with a key that is not in the text. *)
Theorem c76_missing_colon_refuted :
  exists r, parse_object 9 (fun k l r => Ok (l ++ [k], r)) [] (reader_init ropts_default (lit "{" ++ q (lit "a") ++ lit " 1}")) =
    Ok ([lit "1"], r) /\ rerr r <> None.
Proof. eexists. split; [vm_compute; reflexivity|]. vm_compute. discriminate. Qed.
Print Assumptions c76_missing_colon_refuted.
(* The key is a reference to the reader's buffer: once fn has read a value it is that value. *)
Theorem c76_key_reference_refuted :
  exists r, parse_object 9 (fun k (l : list (str * str)) r => do (v, r1) <- parse_string r; Ok (l ++ [(k, rbuf r1)], r1)) []
      (reader_init ropts_default (lit "{" ++ q (lit "key") ++ lit ":" ++ q (lit "value") ++ lit "}")) =
    Ok ([(lit "key", lit "value")], r).
Proof. eexists. vm_compute. reflexivity. Qed.
Print Assumptions c76_key_reference_refuted.

(* ==== C77 ==== *)
(* The first non-empty one of some names; empty if there is none. *)
Inductive first_named : list str -> str -> Prop :=
| fn_none : first_named [] []
| fn_skip l s : first_named l s -> first_named ([] :: l) s
| fn_here x l : x <> [] -> first_named (x :: l) x.

(* t | t1 | ... | tn: skip and skipEmpty if one of them says so, and the first alias,
   parser and printer given. *)
Theorem c77_combined : forall (t : jtraits) (ts : list jtraits),
  let r := fold_left traits_or ts t in
  (t_skip r = true <-> exists x, In x (t :: ts) /\ t_skip x = true) /\
  (t_skipempty r = true <-> exists x, In x (t :: ts) /\ t_skipempty x = true) /\
  first_named (map t_alias (t :: ts)) (t_alias r) /\
  first_named (map t_parser (t :: ts)) (t_parser r) /\
  first_named (map t_printer (t :: ts)) (t_printer r).
Proof.
  assert (F : forall (p : jtraits -> str), (forall a b, p (traits_or a b) = match p a with [] => p b | s => s end) ->
    forall ts t, first_named (map p (t :: ts)) (p (fold_left traits_or ts t))).
  { intros p Hp. induction ts as [|u ts IH]; intro t; cbn [fold_left].
    - destruct (p t) eqn:E; cbn [map]; rewrite E; [constructor; constructor|now constructor].
    - specialize (IH (traits_or t u)). cbn [map] in IH |- *. rewrite Hp in IH. destruct (p t) as [|c l]; [constructor; exact IH|].
      inversion IH; subst; try congruence. now constructor. }
  assert (B : forall (p : jtraits -> bool), (forall a b, p (traits_or a b) = p a || p b) ->
    forall ts t, p (fold_left traits_or ts t) = true <-> exists x, In x (t :: ts) /\ p x = true).
  { intros p Hp. induction ts as [|u ts IH]; intro t; cbn [fold_left].
    - split; [intro H; exists t; cbn; auto|]. intros (x & [<-|[]] & H). exact H.
    - rewrite IH. split.
      + intros (x & [<-|Hx] & H); [rewrite Hp in H; apply orb_true_iff in H as [H|H]|]; [exists t|exists u|exists x]; cbn; auto.
      + intros (x & [<-|[<-|Hx]] & H); [exists (traits_or t u)|exists (traits_or t u)|exists x]; cbn [In]; rewrite ?Hp, ?H, ?orb_true_r; auto. }
  intros t ts r. split; [now apply B|]. split; [now apply B|]. split; [now apply F|]. split; now apply F.
Qed.
Print Assumptions c77_combined.

Theorem c77_grouping : forall a b c : jtraits, traits_or (traits_or a b) c = traits_or a (traits_or b c).
Proof. intros [a1 a2 a3 a4 a5] [b1 b2 b3 b4 b5] [c1 c2 c3 c4 c5]. unfold traits_or. cbn. rewrite !orb_assoc. destruct a3, a4, a5; reflexivity. Qed.
Print Assumptions c77_grouping.

(* What each of the four functions says, whatever the uninitialised member holds. *)
Theorem c77_each : forall (junk : bool) (a ps pr : str),
  (t_skip (tr_skip junk) = true /\ t_alias (tr_skip junk) = [] /\ t_parser (tr_skip junk) = [] /\ t_printer (tr_skip junk) = []) /\
  (tr_skipempty junk = mkT false true [] [] []) /\
  (t_skip (tr_alias junk a) = false /\ t_alias (tr_alias junk a) = a /\ t_parser (tr_alias junk a) = [] /\ t_printer (tr_alias junk a) = []) /\
  (t_skip (tr_custom junk ps pr) = false /\ t_alias (tr_custom junk ps pr) = [] /\ t_parser (tr_custom junk ps pr) = ps /\ t_printer (tr_custom junk ps pr) = pr).
Proof. repeat split. Qed.
Print Assumptions c77_each.

Example c77_example :
  let t := traits_or (traits_or (tr_alias false (lit "n")) (tr_skipempty true)) (tr_alias false (lit "m")) in
  t = mkT false true (lit "n") [] [] /\ traits_or (tr_skip false) (tr_custom false (lit "p") (lit "w")) = mkT true false [] (lit "p") (lit "w").
Proof. split; reflexivity. Qed.

(* A field whose only trait is an alias: whether a zero is printed depends on memory that
   was never written. *)
Theorem c77_alias_alone_refuted :
  let e junk := [DObj [traits_field (lit "count") 1 (tr_alias junk (lit "n"))] [(lit "count", VInt 0)]; DInt true] in
  print_text 9 wopts_default (e false) 0 (VObj [(lit "count", VInt 0)]) = Ok (lit "{" ++ q (lit "n") ++ lit ":0}", false) /\
  print_text 9 wopts_default (e true) 0 (VObj [(lit "count", VInt 0)]) = Ok (lit "{}", false).
Proof. split; vm_compute; reflexivity. Qed.
Print Assumptions c77_alias_alone_refuted.
