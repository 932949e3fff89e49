(* ProofJsonT3.v - the printers write a text of the document SpecJsonT says. *)
From Coq Require String. Import String.StringSyntax.
From Verif Require Import Base Dec ModelJson ModelJsonW ModelJsonT SpecJson SpecJsonT ProofJson1 ProofJson2 ProofJson3 ProofJson4 ProofJson5 ProofJson6 ProofJson8 ProofJson9 ProofJson10 ProofJsonT1 PropJsonStr PropJsonTok.
From Coq Require Import Permutation.
Local Open Scope outcome_scope.

Lemma utf8_text_bytes P s : utf8_text P s -> byte_string s.
Proof.
  induction 1 as [|cp s Hc _ Hs IH]; [constructor|]. apply Forall_app. split; auto.
  destruct (N.ltb_spec cp 0x80) as [L|L].
  - unfold utf8. destruct (N.ltb_spec cp 0x80); [|lia]. repeat constructor. unfold is_byte. lia.
  - destruct (utf8_head cp) as (c & cs & E & Hb); [lia|].
    destruct (utf8_parts cp c cs) as (n & _ & _ & _ & _ & F & _); [lia|now rewrite E|]. rewrite E.
    constructor; [unfold is_byte; lia|]. eapply Forall_impl; [|exact F]. intros a Ha. unfold contb, is_byte in *. lia.
Qed.

Section Print.
Variables (e : env) (wo : wopts) (d : dialect).

Definition tx (nd : Prop) (ts : list atok) (x : str) : Prop :=
  forall rest ts' rest', (nd -> num_stop rest) -> lexes d rest ts' rest' -> lexes d (x ++ rest) (ts ++ ts') rest'.

Lemma tx_weak (a b : Prop) ts x : (a -> b) -> tx a ts x -> tx b ts x.
Proof. intros H T rest ts' rest' Hs. apply T. auto. Qed.
Lemma tx_nil nd : tx nd [] [].
Proof. intros rest ts' rest' _ H. exact H. Qed.
Lemma tx_tok t x : tok_text d t x -> tx (is_num t) [t] x.
Proof. intros Ht rest ts' rest' Hs Hl. cbn [app]. apply (lx_cons d [] t x rest ts' rest'); auto. constructor. Qed.
Lemma tx_app a b ts1 ts2 x1 x2 : tx a ts1 x1 -> tx b ts2 x2 ->
  (forall rest, a -> (b -> num_stop rest) -> num_stop (x2 ++ rest)) -> tx b (ts1 ++ ts2) (x1 ++ x2).
Proof. intros T1 T2 H rest ts' rest' Hs Hl. rewrite <- !app_assoc. apply T1; auto. Qed.
Lemma tx_blank a w ts x : blank d w -> ts <> [] -> tx a ts x -> tx a ts (w ++ x).
Proof.
  intros Hw Hn T rest ts' rest' Hs Hl. rewrite <- app_assoc. apply lexes_blank; auto. destruct ts; [contradiction|discriminate].
Qed.
(* single character tokens *)
Definition sep (t : atok) : option byte :=
  match t with AArrS => Some 91%N | AArrE => Some 93%N | AObjS => Some 123%N | AObjE => Some 125%N
             | ASep => Some 44%N | AKey => Some 58%N | _ => None end.
Lemma tx_sep t c : sep t = Some c -> tx False [t] [c].
Proof. intro H. destruct t; try discriminate; injection H as <-; match goal with |- tx False [?t] ?x => exact (tx_tok t x ltac:(constructor)) end. Qed.
Lemma sep_stop t c s : sep t = Some c -> num_stop (c :: s).
Proof.
  intro H. assert (Hc : (c = 91 \/ c = 93 \/ c = 123 \/ c = 125 \/ c = 44 \/ c = 58)%N).
  { destruct t; try discriminate; injection H as <-; tauto. }
  exists c, s. unfold digit_char. repeat split; lia.
Qed.
Lemma tx_sep_then t c nd ts x : sep t = Some c -> tx nd ts x -> tx nd (t :: ts) (c :: x).
Proof.
  intros H T. change (t :: ts) with ([t] ++ ts). change (c :: x) with ([c] ++ x).
  eapply tx_app; [eapply tx_sep; eauto|exact T|]. intros rest [].
Qed.

(* ---- the writer ---- *)
Definition inv (w : writer) : Prop := wopt w = wo /\ werr w = false.
Lemma inv_push x w : inv w -> inv (push x w). Proof. intros [A B]. split; auto. Qed.
Lemma inv_indent w : inv w -> inv (indent w). Proof. intros [A B]. split; auto. Qed.
Definition room (w : writer) (n : nat) : Prop := w_pretty wo = true -> (windent w + N.of_nat n <= 1024)%N.
Lemma room_push x w n : room w n -> room (push x w) n. Proof. auto. Qed.
Lemma room_le w n m : room w n -> m <= n -> room w m.
Proof. unfold room. intros H L K. specialize (H K). lia. Qed.

Lemma blank_spaces n : blank d (repeat 32%N n).
Proof. induction n; cbn; constructor; auto. now left. Qed.
Lemma wspace_ok w : inv w -> exists b, wspace w = push b w /\ blank d b.
Proof.
  intros _. unfold wspace. destruct (w_pretty (wopt w)).
  - exists [32%N]. split; [reflexivity|]. apply (blank_spaces 1).
  - exists []. rewrite push_nil. split; [reflexivity|constructor].
Qed.
Lemma wnewline_ok w : inv w -> room w 0 -> exists b, wnewline w = Ok (push b w) /\ blank d b.
Proof.
  intros [Ho _] Hr. unfold wnewline, room in *. rewrite Ho. destruct (w_pretty wo).
  - specialize (Hr eq_refl). destruct (N.ltb_spec 4096 (windent w * 4)); [lia|].
    rewrite push_push. eexists. split; [reflexivity|]. cbn [app]. constructor; [right; lia|apply blank_spaces].
  - exists []. rewrite push_nil. split; [reflexivity|constructor].
Qed.

Lemma str_printed s w : str_ok wo d s -> inv w -> exists x, format_string s w = Ok (push x w) /\ tok_text d (AStr s) x.
Proof.
  intros Hs [Ho He]. unfold str_ok in Hs. destruct (w_escape wo) eqn:E1.
  - destruct Hs as [Hu Hd]. destruct (format_string_escape d s w Hu Hd) as (x & E & Hx); auto; [now rewrite Ho|].
    exists (34%N :: x ++ [34%N]). split; [exact E|now constructor].
  - destruct (w_validate wo) eqn:E2.
    + assert (Wp : w_escape (wopt (push [34%N] w)) = false) by (cbn; now rewrite Ho).
      assert (Wv : w_validate (wopt (push [34%N] w)) = true) by (cbn; now rewrite Ho).
      destruct (fstring_valid s Hs (length s) (push [34%N] w) Wp Wv He (le_n _)) as (x & E).
      assert (He' : werr (push x (push [34%N] w)) = false) by exact He.
      destruct (fstring_raw d (length s) s (push [34%N] w) _ Wp (utf8_text_bytes _ _ Hs) E He') as [_ H].
      destruct (H (or_introl Wv)) as (y & Ey & Hy). rewrite Ey in E.
      unfold format_string. rewrite E. cbn [bind]. rewrite !push_push. exists ([34%N] ++ y ++ [34%N]). rewrite <- ?app_assoc.
      split; [reflexivity|]. now constructor.
    + destruct Hs as [Hb Hd].
      destruct (no_validate_read s Hb d Hd (length s) (push [34%N] w)) as (x & E & Hx); auto; [cbn; now rewrite Ho|cbn; now rewrite Ho|].
      unfold format_string. rewrite E. cbn [bind]. rewrite !push_push. exists ([34%N] ++ x ++ [34%N]). rewrite <- ?app_assoc.
      split; [reflexivity|]. now constructor.
Qed.

Definition prints (fn : writer -> outcome writer) (j : json) : Prop :=
  forall w, inv w -> room w (depth j) -> exists x, fn w = Ok (push x w) /\ tx (is_number j) (toks j) x.

Lemma toks_nonempty j : toks j <> []. Proof. destruct j; discriminate. Qed.

Definition stop_pass (T : str) : Prop := forall rest, num_stop rest -> num_stop (T ++ rest).

(* tokens of the items after the first *)
Fixpoint more {A : Type} (f : A -> list atok) (l : list A) : list atok :=
  match l with [] => [] | x :: l' => ASep :: f x ++ more f l' end.
Lemma sep_by_more {A : Type} (f : A -> list atok) x l : sep_by (map f (x :: l)) = f x ++ more f l.
Proof.
  revert x. induction l as [|y l IH]; intro x; cbn [map sep_by more].
  - now rewrite app_nil_r.
  - f_equal. f_equal. exact (IH y).
Qed.

Lemma parray_more pfn : forall js i w, inv w ->
  (forall n j, nth_error js n = Some j -> prints (pfn (i + n)) j) ->
  (forall j, In j js -> room w (depth j)) -> room w 0 ->
  exists T, parray_loop false i (length js) pfn w = Ok (true, push T w) /\ tx True (more toks js) T /\ stop_pass T.
Proof.
  induction js as [|j js IH]; intros i w Hw Hp Hr H0; cbn [length parray_loop].
  - exists []. rewrite push_nil. repeat split. { apply tx_nil. } now intros rest H.
  - unfold wok. rewrite (proj2 Hw). cbn [negb].
    destruct (wnewline_ok (push (lit ",") w)) as (b & Eb & Hb); [now apply inv_push|exact H0|]. rewrite Eb. cbn [bind].
    destruct (Hp 0 j eq_refl (push b (push (lit ",") w))) as (x & Ex & Hx); [now apply inv_push, inv_push|apply (Hr j); now left|].
    rewrite Nat.add_0_r in Ex. rewrite Ex. cbn [bind].
    destruct (IH (S i) (push x (push b (push (lit ",") w)))) as (T & ET & HT & HS).
    + now apply inv_push, inv_push, inv_push.
    + intros n j' Hn. replace (S i + n) with (i + S n) by lia. now apply Hp.
    + intros j' Hj. apply (Hr j'). now right.
    + exact H0.
    + rewrite ET. rewrite !push_push. eexists. split; [reflexivity|]. split.
      * change (lit ",") with [44%N]. rewrite <- ?app_assoc. cbn [app more]. apply tx_sep_then; [reflexivity|].
        apply tx_blank; [exact Hb| |].
        { destruct (toks j) eqn:E; [now destruct (toks_nonempty j)|discriminate]. }
        eapply tx_app; [eapply (tx_weak _ True); [tauto|exact Hx]|exact HT|]. intros rest _ H. apply HS. auto.
      * intros rest _. rewrite <- ?app_assoc. eapply (sep_stop ASep). reflexivity.
Qed.

Lemma parray_first pfn js i w : inv w ->
  (forall n j, nth_error js n = Some j -> prints (pfn (i + n)) j) ->
  (forall j, In j js -> room w (depth j)) -> room w 0 ->
  exists T, parray_loop true i (length js) pfn w = Ok (true, push T w) /\ tx True (sep_by (map toks js)) T.
Proof.
  intros Hw Hp Hr H0. destruct js as [|j js]; cbn [length parray_loop].
  - exists []. rewrite push_nil. split; [reflexivity|]. apply tx_nil.
  - unfold wok. rewrite (proj2 Hw). cbn [negb bind].
    destruct (Hp 0 j eq_refl w) as (x & Ex & Hx); [auto|apply (Hr j); now left|].
    rewrite Nat.add_0_r in Ex. rewrite Ex. cbn [bind].
    destruct (parray_more pfn js (S i) (push x w)) as (T & ET & HT & HS).
    + now apply inv_push.
    + intros n j' Hn. replace (S i + n) with (i + S n) by lia. now apply Hp.
    + intros j' Hj. apply (Hr j'). now right.
    + exact H0.
    + rewrite ET, push_push. eexists. split; [reflexivity|]. rewrite sep_by_more.
      eapply tx_app; [eapply (tx_weak _ True); [tauto|exact Hx]|exact HT|]. intros rest _ H. apply HS. auto.
Qed.

(* opening and closing: with or without indentation *)
Lemma open_ok (many : bool) w n : inv w -> room w (S n) ->
  exists b w', (if many then wnewline (indent w) else Ok (wspace w)) = Ok (push b w') /\ blank d b /\ inv w' /\ room w' n /\
    (if many then w' = indent w else w' = w).
Proof.
  intros Hw Hr. destruct many.
  - assert (Hr' : room (indent w) n) by (unfold room in *; cbn; intro K; specialize (Hr K); lia).
    destruct (wnewline_ok (indent w)) as (b & E & Hb); [now apply inv_indent|eapply room_le; eauto; lia|].
    exists b, (indent w). repeat split; auto; apply Hw.
  - destruct (wspace_ok w Hw) as (b & E & Hb). exists b, w. rewrite E. repeat split; auto; try apply Hw. eapply room_le; eauto.
Qed.
Lemma close_ok (many : bool) w w' X n : inv w -> room w n -> (if many then w' = indent w else w' = w) ->
  exists b, (if many then wnewline (unindent (push X w')) else Ok (wspace (push X w'))) = Ok (push b (push X w)) /\ blank d b.
Proof.
  intros Hw Hr Hm. destruct many; subst w'.
  - replace (unindent (push X (indent w))) with (push X w) by (unfold unindent, push, indent; cbn; f_equal; lia).
    apply wnewline_ok; [now apply inv_push|]. eapply (room_le _ n); auto. lia.
  - destruct (wspace_ok (push X w)) as (b & E & Hb); [now apply inv_push|]. exists b. rewrite E. auto.
Qed.

Lemma depth_arr js j : In j js -> depth j < depth (JArr js).
Proof.
  intro H. cbn [depth]. apply Nat.lt_succ_r. induction js as [|x js IH]; [destruct H|]. cbn [fold_right].
  destruct H as [->|H]; [lia|]. specialize (IH H). lia.
Qed.
Lemma depth_obj l (kv : str * json) : In kv l -> depth (snd kv) < depth (JObj l).
Proof.
  intro H. cbn [depth]. apply Nat.lt_succ_r. induction l as [|x js IH]; [destruct H|]. cbn [fold_right].
  destruct H as [->|H]; [lia|]. specialize (IH H). lia.
Qed.

Lemma print_array_ok pfn js : (forall n j, nth_error js n = Some j -> prints (pfn n) j) ->
  prints (print_array (length js) pfn) (JArr js).
Proof.
  intros Hp w Hw Hr. unfold print_array. set (many := (1 <? length js)). set (w0 := push (lit "[") w).
  pose (dd := fold_right (fun x n => Nat.max (depth x) n) 0 js). change (depth (JArr js)) with (S dd) in Hr.
  assert (Hw0 : inv w0) by now apply inv_push.
  destruct (open_ok many w0 dd Hw0 Hr) as (b1 & w1 & E1 & B1 & I1 & R1 & M1). rewrite E1. cbn [bind].
  destruct (parray_first pfn js 0 (push b1 w1)) as (T & ET & HT).
  { now apply inv_push. }
  { exact Hp. }
  { intros j Hj. eapply room_le; [exact R1|]. pose proof (depth_arr js j Hj) as L. change (depth (JArr js)) with (S dd) in L. lia. }
  { eapply room_le; [exact R1|lia]. }
  rewrite ET. cbn [bind negb]. rewrite push_push.
  destruct (close_ok many w0 w1 (b1 ++ T) (S dd) Hw0 Hr M1) as (b2 & E2 & B2). rewrite E2. cbn [bind].
  unfold w0. rewrite !push_push. eexists. split; [reflexivity|].
  rewrite toks_arr. unfold arr_toks. change (lit "[") with [91%N]. change (lit "]") with [93%N]. rewrite <- ?app_assoc. cbn [app].
  apply tx_sep_then; [reflexivity|]. apply tx_blank; [exact B1|now destruct (sep_by (map toks js))|].
  eapply tx_app; [exact HT| |].
  - apply tx_blank; [exact B2|discriminate|]. eapply tx_weak; [|apply (tx_sep AArrE); reflexivity]. tauto.
  - intros rest _ _. rewrite <- app_assoc. eapply blank_stop; [exact B2|]. apply (sep_stop AArrE). reflexivity.
Qed.

(* ---- objects ---- *)
Inductive oprint (pfn : str -> writer -> outcome writer) (sfn : str -> writer -> outcome bool) : list str -> list (str * json) -> Prop :=
| op_nil : oprint pfn sfn [] []
| op_skip k ks kjs : (forall w, inv w -> sfn k w = Ok true) -> oprint pfn sfn ks kjs -> oprint pfn sfn (k :: ks) kjs
| op_show k j ks kjs : (forall w, inv w -> sfn k w = Ok false) -> prints (pfn k) j -> str_ok wo d k ->
    oprint pfn sfn ks kjs -> oprint pfn sfn (k :: ks) ((k, j) :: kjs).

Definition mtoks (kv : str * json) : list atok := AStr (fst kv) :: AKey :: toks (snd kv).

(* one member *)
Lemma member_ok k j pfn w : str_ok wo d k -> prints (pfn k) j -> inv w -> room w (depth j) ->
  exists x, (do w2 <- format_string k w; pfn k (wspace (push (lit ":") w2))) = Ok (push x w) /\ tx True (mtoks (k, j)) x.
Proof.
  intros Hk Hp Hw Hr. destruct (str_printed k w Hk Hw) as (x & E & Hx). rewrite E. cbn [bind].
  destruct (wspace_ok (push (lit ":") (push x w))) as (b & Eb & Hb); [now apply inv_push, inv_push|]. rewrite Eb.
  destruct (Hp (push b (push (lit ":") (push x w)))) as (y & Ey & Hy); [now apply inv_push, inv_push, inv_push|exact Hr|].
  rewrite Ey, !push_push. eexists. split; [reflexivity|]. unfold mtoks. cbn [fst snd].
  change (lit ":") with [58%N]. rewrite <- ?app_assoc. cbn [app].
  change (AStr k :: AKey :: toks j) with ([AStr k] ++ AKey :: toks j).
  eapply tx_app; [apply tx_tok; exact Hx| |intros rest []].
  apply tx_sep_then; [reflexivity|]. apply tx_blank; [exact Hb|apply toks_nonempty|]. eapply tx_weak; [|exact Hy]. tauto.
Qed.

Lemma pobject_more pfn sfn ks kjs : oprint pfn sfn ks kjs -> forall w, inv w ->
  (forall kj, In kj kjs -> room w (depth (snd kj))) -> room w 0 ->
  exists T, pobject_loop false ks pfn sfn w = Ok (true, push T w) /\ tx True (more mtoks kjs) T /\ stop_pass T.
Proof.
  induction 1 as [|k ks kjs Hs Ho IH|k j ks kjs Hs Hp Hk Ho IH]; intros w Hw Hr H0; cbn [pobject_loop].
  - exists []. rewrite push_nil. repeat split. { apply tx_nil. } now intros rest H.
  - unfold wok. rewrite (proj2 Hw). cbn [negb]. rewrite (Hs w Hw). cbn [bind]. apply IH; auto.
  - unfold wok. rewrite (proj2 Hw). cbn [negb]. rewrite (Hs w Hw). cbn [bind].
    destruct (wnewline_ok (push (lit ",") w)) as (b & Eb & Hb); [now apply inv_push|exact H0|]. rewrite Eb. cbn [bind].
    destruct (member_ok k j pfn (push b (push (lit ",") w)) Hk Hp) as (x & Ex & Hx); [now apply inv_push, inv_push|apply (Hr (k, j)); now left|].
    apply bind_ok in Ex as (w2 & Ew2 & Ew3). rewrite Ew2. cbn [bind]. rewrite Ew3. cbn [bind].
    destruct (IH (push x (push b (push (lit ",") w)))) as (T & ET & HT & HS).
    + now apply inv_push, inv_push, inv_push.
    + intros kj Hj. apply (Hr kj). now right.
    + exact H0.
    + rewrite ET. rewrite !push_push. eexists. split; [reflexivity|]. split.
      * change (lit ",") with [44%N]. rewrite <- ?app_assoc. cbn [app more]. apply tx_sep_then; [reflexivity|].
        apply tx_blank; [exact Hb|discriminate|].
        eapply tx_app; [exact Hx|exact HT|]. intros rest _ H. apply HS. auto.
      * intros rest _. rewrite <- ?app_assoc. eapply (sep_stop ASep). reflexivity.
Qed.
Lemma pobject_first pfn sfn ks kjs : oprint pfn sfn ks kjs -> forall w, inv w ->
  (forall kj, In kj kjs -> room w (depth (snd kj))) -> room w 0 ->
  exists T, pobject_loop true ks pfn sfn w = Ok (true, push T w) /\ tx True (sep_by (map mtoks kjs)) T.
Proof.
  induction 1 as [|k ks kjs Hs Ho IH|k j ks kjs Hs Hp Hk Ho IH]; intros w Hw Hr H0; cbn [pobject_loop].
  - exists []. rewrite push_nil. split; [reflexivity|]. apply tx_nil.
  - unfold wok. rewrite (proj2 Hw). cbn [negb]. rewrite (Hs w Hw). cbn [bind]. apply IH; auto.
  - unfold wok. rewrite (proj2 Hw). cbn [negb]. rewrite (Hs w Hw). cbn [bind].
    destruct (member_ok k j pfn w Hk Hp) as (x & Ex & Hx); [auto|apply (Hr (k, j)); now left|].
    apply bind_ok in Ex as (w2 & Ew2 & Ew3). rewrite Ew2. cbn [bind]. rewrite Ew3. cbn [bind].
    destruct (pobject_more pfn sfn ks kjs Ho (push x w)) as (T & ET & HT & HS).
    + now apply inv_push.
    + intros kj Hj. apply (Hr kj). now right.
    + exact H0.
    + rewrite ET, push_push. eexists. split; [reflexivity|]. rewrite sep_by_more.
      eapply tx_app; [exact Hx|exact HT|]. intros rest _ H. apply HS. auto.
Qed.
Lemma print_object_ok pfn sfn ks kjs : oprint pfn sfn ks kjs -> prints (print_object ks pfn sfn) (JObj kjs).
Proof.
  intros Hp w Hw Hr. unfold print_object. set (many := (1 <? length ks)). set (w0 := push (lit "{") w).
  pose (dd := fold_right (fun kv n => Nat.max (depth (snd kv)) n) 0 kjs). change (depth (JObj kjs)) with (S dd) in Hr.
  assert (Hw0 : inv w0) by now apply inv_push.
  destruct (open_ok many w0 dd Hw0 Hr) as (b1 & w1 & E1 & B1 & I1 & R1 & M1). rewrite E1. cbn [bind].
  destruct (pobject_first pfn sfn ks kjs Hp (push b1 w1)) as (T & ET & HT).
  { now apply inv_push. }
  { intros kj Hj. eapply room_le; [exact R1|]. pose proof (depth_obj kjs kj Hj) as L. change (depth (JObj kjs)) with (S dd) in L. lia. }
  { eapply room_le; [exact R1|lia]. }
  rewrite ET. cbn [bind negb]. rewrite push_push.
  destruct (close_ok many w0 w1 (b1 ++ T) (S dd) Hw0 Hr M1) as (b2 & E2 & B2). rewrite E2. cbn [bind].
  unfold w0. rewrite !push_push. eexists. split; [reflexivity|].
  change (toks (JObj kjs)) with (AObjS :: sep_by (map mtoks kjs) ++ [AObjE]).
  change (lit "{") with [123%N]. change (lit "}") with [125%N]. rewrite <- ?app_assoc. cbn [app].
  apply tx_sep_then; [reflexivity|]. apply tx_blank; [exact B1|now destruct (sep_by (map mtoks kjs))|].
  eapply tx_app; [exact HT| |].
  - apply tx_blank; [exact B2|discriminate|]. eapply tx_weak; [|apply (tx_sep AObjE); reflexivity]. tauto.
  - intros rest _ _. rewrite <- app_assoc. eapply blank_stop; [exact B2|]. apply (sep_stop AObjE). reflexivity.
Qed.
End Print.
