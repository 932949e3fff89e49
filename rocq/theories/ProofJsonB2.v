(* ProofJsonB2.v - the typed parsers on accepted documents: the analogue of ProofJsonT1. *)
From Coq Require String. Import String.StringSyntax.
From Verif Require Import Base Dec ModelJson ModelJsonW ModelJsonT SpecJson SpecJsonT SpecJsonA ProofJson1 ProofJson2 ProofJson3 ProofJson4 ProofJson5 ProofJson6 ProofJson7 ProofJson8 ProofJson9 ProofJson10 ProofJsonT1 ProofJsonA1 ProofJsonA2 ProofJsonA3 ProofJsonA7 ProofJsonA9 ProofJsonB1.
Local Open Scope outcome_scope.

Lemma float_not_minus x : float_read x -> AFloat x <> AFloat [45%N].
Proof.
  intros (sg & d & m & Hs & Hd & Hx) E. injection E as ->. unfold digit_char in Hd.
  destruct Hs as [->| ->], Hx as [Hx|Hx]; cbn [app] in Hx; injection Hx; intros; try discriminate; subst; lia.
Qed.

(* ---- scalars ---- *)
Lemma null_P o ts rest r : pview o (ANull :: ts) rest r -> exists r', parse_null r = Ok r' /\ W o ts rest r'.
Proof.
  intro H. destruct (expect_P o ANull ts rest r TNull H ltac:(discriminate) eq_refl) as (r' & E & HV & _).
  exists r'. unfold parse_null. rewrite E. auto.
Qed.
Lemma bool_P o b ts rest r : pview o (ABool b :: ts) rest r -> exists r', parse_bool r = Ok (b, r') /\ W o ts rest r'.
Proof.
  intro H. destruct (expect_P o (ABool b) ts rest r (TBool true) H ltac:(discriminate) eq_refl) as (r' & E & HV & _).
  exists r'. unfold parse_bool. rewrite E. auto.
Qed.
Lemma int_P o z ts rest r : int64 z -> pview o (AInt z :: ts) rest r -> exists r', parse_int r = Ok (z, r') /\ W o ts rest r'.
Proof.
  intros Hz H. destruct (expect_P o (AInt z) ts rest r TInt H ltac:(discriminate) eq_refl) as (r' & E & HV & HP).
  exists r'. unfold parse_int. rewrite E. cbn [bind tok_of as_int]. cbn [payload] in HP. now rewrite (stol_ok z _ HP Hz).
Qed.
Lemma str_P o s ts rest r : pview o (AStr s :: ts) rest r -> exists r', parse_string r = Ok (s, r') /\ W o ts rest r'.
Proof.
  intros H. destruct (expect_P o (AStr s) ts rest r TStr H ltac:(discriminate) eq_refl) as (r' & E & HV & HP).
  exists r'. unfold parse_string. rewrite E. cbn [bind tok_of as_string]. cbn [payload] in HP. now rewrite HP.
Qed.
Lemma float_P o x ts rest r : float_read x -> pview o (AFloat x :: ts) rest r -> exists r', parse_float r = Ok (x, r') /\ W o ts rest r'.
Proof.
  intros Hx H. destruct (next_P o (AFloat x) ts rest r H (float_not_minus _ Hx)) as (r' & E & HV & HP).
  exists r'. unfold parse_float. rewrite E. cbn [bind tok_of same_type assert_tok as_float]. unfold assert_tok. cbn [same_type].
  cbn [payload] in HP. now rewrite HP, (stod_ok x Hx).
Qed.

Lemma dyn_P o rest j : json_ok j -> forall ts r fuel v, pview o (toks j ++ ts) rest r -> jsize j < fuel ->
  exists r', parse_dyn fuel v r = Ok (dyn_into v j, r') /\ W o ts rest r'.
Proof.
  induction j as [| | | | |l IH|l IH] using json_ind'; intros Hj ts r fuel v Hv Hf;
    (destruct fuel as [|f]; [lia|]); cbn [parse_dyn].
  - cbn [toks app] in Hv. destruct (peek_P _ _ _ _ _ Hv ltac:(discriminate)) as (r1 & E & Hv1). rewrite E. cbn [bind tok_of].
    destruct (null_P _ _ _ _ Hv1) as (r2 & E2 & HV). rewrite E2. cbn [bind]. eauto.
  - cbn [toks app] in Hv. destruct (peek_P _ _ _ _ _ Hv ltac:(discriminate)) as (r1 & E & Hv1). rewrite E. cbn [bind tok_of].
    destruct (bool_P _ _ _ _ _ Hv1) as (r2 & E2 & HV). rewrite E2. cbn [bind]. eauto.
  - cbn [toks app] in Hv. destruct (peek_P _ _ _ _ _ Hv ltac:(discriminate)) as (r1 & E & Hv1). rewrite E. cbn [bind tok_of].
    inversion Hj; subst. destruct (int_P _ _ _ _ _ ltac:(eassumption) Hv1) as (r2 & E2 & HV). rewrite E2. cbn [bind]. eauto.
  - cbn [toks app] in Hv. assert (Hx : float_read x) by (inversion Hj; auto). destruct (peek_P _ _ _ _ _ Hv (float_not_minus _ Hx)) as (r1 & E & Hv1). rewrite E. cbn [bind tok_of].
    destruct (float_P _ _ _ _ _ Hx Hv1) as (r2 & E2 & HV). rewrite E2. cbn [bind]. eauto.
  - cbn [toks app] in Hv. destruct (peek_P _ _ _ _ _ Hv ltac:(discriminate)) as (r1 & E & Hv1). rewrite E. cbn [bind tok_of].
    destruct (str_P _ _ _ _ _ Hv1) as (r2 & E2 & HV). rewrite E2. cbn [bind]. eauto.
  - rewrite toks_arr in Hv. unfold arr_toks in Hv. cbn [app] in Hv.
    destruct (peek_P _ _ _ _ _ Hv ltac:(discriminate)) as (r1 & E & Hv1). rewrite E. cbn [bind tok_of].
    inversion Hj as [| | | | |l' Hl|]; subst.
    assert (Hc : forall l' : list json, (forall x, In x l' -> In x l) -> forall i acc,
      pchain o rest (fun _ l r => do (x, r') <- parse_dyn f VVoid r; Ok (l ++ [x], r')) i acc (map toks l') (acc ++ map dyn_value l')).
    { induction l' as [|x l' IHl]; intros Hin i acc; cbn [map].
      - rewrite app_nil_r. constructor.
      - replace (acc ++ dyn_value x :: map dyn_value l') with ((acc ++ [dyn_value x]) ++ map dyn_value l') by now rewrite <- app_assoc.
        econstructor; [|apply IHl; intros; apply Hin; now right].
        intros ts0 r0 H0. rewrite Forall_forall in IH. assert (Hx : In x l) by (apply Hin; now left).
        destruct (IH x Hx (Hl x Hx) ts0 r0 f VVoid H0) as (r' & E' & HV').
        { pose proof (jsize_in_arr l x Hx). lia. }
        exists r'. rewrite E'. cbn [bind]. split; [|exact HV']. now destruct x. }
    destruct (parse_array_P o rest _ [] (map toks l) _ ts r1 f (Hc l (fun _ H => H) 0 [])) as (r2 & E2 & HV).
    + intros it its' E0. destruct l as [|x l']; [discriminate|]. cbn in E0. injection E0 as <- <-.
      destruct (toks_head x) as (t & ts' & Ht & H1 & _). eauto.
    + exact Hv1.
    + rewrite map_length. pose proof (jsize_len_arr l). lia.
    + rewrite E2. cbn [bind]. exists r2. split; [reflexivity|exact HV].
  - rewrite toks_obj in Hv. unfold obj_toks in Hv. cbn [app] in Hv.
    destruct (peek_P _ _ _ _ _ Hv ltac:(discriminate)) as (r1 & E & Hv1). rewrite E. cbn [bind tok_of].
    inversion Hj as [| | | | | |l' Hl]; subst.
    assert (Hc : forall l' : list (str * json), (forall x, In x l' -> In x l) -> forall acc,
      pkchain o rest (fun k m r => do (x, r') <- parse_dyn f VVoid r; Ok (if ahas k m then m else m ++ [(k, x)], r')) acc
        (map (fun kv => (fst kv, toks (snd kv))) l')
        (acc ++ firsts (akeys acc) (map (fun kv => (fst kv, dyn_value (snd kv))) l'))).
    { induction l' as [|[k x] l' IHl]; intros Hin acc; cbn [map].
      - cbn [firsts]. rewrite app_nil_r. constructor.
      - cbn [fst snd]. econstructor.
        + intros ts0 r0 H0. rewrite Forall_forall in IH. assert (Hx : In (k, x) l) by (apply Hin; now left).
          destruct (IH (k, x) Hx (Hl k x Hx) ts0 r0 f VVoid H0) as (r' & E' & HV').
          { pose proof (jsize_in_obj l (k, x) Hx). lia. }
          exists r'. rewrite E'. cbn [bind snd]. split; [reflexivity|exact HV'].
        + rewrite firsts_step, smem_ahas.
          replace (dyn_into VVoid x) with (dyn_value x) by now destruct x.
          destruct (ahas k acc).
          * apply IHl. intros; apply Hin; now right.
          * replace (acc ++ (k, dyn_value x) :: firsts (k :: akeys acc) (map (fun kv => (fst kv, dyn_value (snd kv))) l'))
              with ((acc ++ [(k, dyn_value x)]) ++ firsts (akeys (acc ++ [(k, dyn_value x)])) (map (fun kv => (fst kv, dyn_value (snd kv))) l')).
            { apply IHl. intros; apply Hin; now right. }
            rewrite <- app_assoc. f_equal. cbn [app]. f_equal. apply firsts_perm. intro k'. unfold akeys. rewrite map_app. cbn [map fst].
            destruct (smem k' (map fst acc ++ [k])) eqn:F; symmetry.
            { apply smem_In in F. apply smem_In. apply in_app_or in F as [F|[F|[]]]; [right|left]; auto. }
            { destruct (smem k' (k :: map fst acc)) eqn:G; auto. apply smem_In in G.
              assert (In k' (map fst acc ++ [k])) by (destruct G as [G|G]; apply in_or_app; [right; now left|now left]).
              apply smem_In in H. congruence. } }
    destruct (parse_object_P o rest _ [] _ _ ts r1 f (Hc l (fun _ H => H) [])) as (r2 & E2 & HV).
    + exact Hv1.
    + rewrite map_length. pose proof (jsize_len_obj l). lia.
    + rewrite E2. cbn [bind]. exists r2. split; [reflexivity|exact HV].
Qed.

(* ---- typed parsing ---- *)
Section Typed.
Variables (o : ropts) (e : env).

Definition parsesP (t : nat) (v : val) (j : json) (v' : val) : Prop :=
  exists n, forall f, n <= f -> forall ts rest r, pview o (toks j ++ ts) rest r ->
    exists mv r', parse_t f e t v r = Ok (v', mv, r') /\ W o ts rest r' /\ (~ raw_null e t j -> mv = false).

Definition parses_itemsP (i : nat) (js : list json) (xs : list val) : Prop :=
  exists n, forall f, n <= f -> forall rest k l, pchain o rest (list_fn e f i) k l (map toks js) (l ++ xs).
Definition parses_pairsP (i : nat) (kjs : list (str * json)) (kxs : list (str * val)) : Prop :=
  exists n, forall f, n <= f -> forall rest m, pkchain o rest (map_fn e f i) m (ktoks kjs) (put_all m kxs).
Definition parses_membersP (fs : list field) (ob : list (str * val)) (kjs : list (str * json)) (ob' : list (str * val)) : Prop :=
  exists n, forall f, n <= f -> forall rest, pkchain o rest (obj_fn e f fs) ob (ktoks kjs) ob'.

Lemma reads_parsesP :
  (forall t v j v', reads e t v j v' -> parsesP t v j v') /\
  (forall i js xs, reads_items e i js xs -> parses_itemsP i js xs) /\
  (forall i kjs kxs, reads_pairs e i kjs kxs -> parses_pairsP i kjs kxs) /\
  (forall fs ob kjs ob', reads_members e fs ob kjs ob' -> parses_membersP fs ob kjs ob').
Proof.
  apply reads_comb.
  - intros t v b Ht. exists 1. intros f Hf ts rest r Hv. destruct f; [lia|]. cbn [parse_t]. rewrite Ht.
    destruct (bool_P _ _ _ _ _ Hv) as (r1 & E & HV). rewrite E. cbn [bind]. eauto 6.
  - intros t v z Ht Hz. exists 1. intros f Hf ts rest r Hv. destruct f; [lia|]. cbn [parse_t]. rewrite Ht.
    destruct (int_P _ _ _ _ _ Hz Hv) as (r1 & E & HV). rewrite E. cbn [bind]. eauto 6.
  - intros t v x Ht Hx. exists 1. intros f Hf ts rest r Hv. destruct f; [lia|]. cbn [parse_t]. rewrite Ht.
    destruct (float_P _ _ _ _ _ Hx Hv) as (r1 & E & HV). rewrite E. cbn [bind]. eauto 6.
  - intros t v s Ht. exists 1. intros f Hf ts rest r Hv. destruct f; [lia|]. cbn [parse_t]. rewrite Ht.
    destruct (str_P _ _ _ _ _ Hv) as (r1 & E & HV). rewrite E. cbn [bind]. eauto 6.
  - intros t i v Ht. exists 1. intros f Hf ts rest r Hv. destruct f; [lia|]. cbn [parse_t]. rewrite Ht.
    destruct (peek_P _ _ _ _ _ Hv ltac:(discriminate)) as (r1 & E & Hv1). rewrite E. cbn [bind tok_of same_type].
    destruct (next_P _ _ _ _ _ Hv1 ltac:(discriminate)) as (r2 & E2 & HV & _). rewrite E2. cbn [bind negb]. eauto 6.
  - intros t i v Ht. exists 1. intros f Hf ts rest r Hv. destruct f; [lia|]. cbn [parse_t]. rewrite Ht.
    destruct (peek_P _ _ _ _ _ Hv ltac:(discriminate)) as (r1 & E & Hv1). rewrite E. cbn [bind tok_of same_type].
    destruct (next_P _ _ _ _ _ Hv1 ltac:(discriminate)) as (r2 & E2 & HV & _). rewrite E2. cbn [bind negb]. exists true, r2. repeat split; auto.
    intro Hr. exfalso. apply Hr. split; [reflexivity|eauto].
  - intros t sm i p j p' Ht Hj _ (n & IH). exists (S n). intros f Hf ts rest r Hv. destruct f; [lia|]. cbn [parse_t]. rewrite Ht.
    destruct (null_not_tok j Hj) as (t0 & ts0 & E0 & Hn). rewrite E0 in Hv. cbn [app] in Hv.
    destruct (peek_kind _ _ _ _ _ Hv) as (tk & r1 & E & Kt & Hv1). rewrite E. cbn [bind]. assert (Hn' : same_type tk TNull = false) by (destruct Kt as [->|(_ & ->)]; [exact Hn|reflexivity]). rewrite Hn'.
    change (t0 :: ts0 ++ ts) with ((t0 :: ts0) ++ ts) in Hv1. rewrite <- E0 in Hv1.
    destruct (IH f ltac:(lia) ts rest r1 Hv1) as (mv & r2 & E2 & HV & _).
    destruct p as [x|]; rewrite E2; cbn [bind]; eauto 6.
  - intros t i l Ht. exists 1. intros f Hf ts rest r Hv. destruct f; [lia|]. cbn [parse_t]. rewrite Ht.
    match goal with |- context [parse_array ?f ?fn ?s ?r] => destruct (parse_array_nullP o rest fn s ts r f Hv) as (r1 & E & HV) end.
    rewrite E. cbn [bind]. eauto 6.
  - intros t i m Ht. exists 1. intros f Hf ts rest r Hv. destruct f; [lia|]. cbn [parse_t]. rewrite Ht.
    match goal with |- context [parse_object ?f ?fn ?s ?r] => destruct (parse_object_nullP o rest fn s ts r f Hv) as (r1 & E & HV) end.
    rewrite E. cbn [bind]. eauto 6.
  - intros t fs ini ob Ht. exists 1. intros f Hf ts rest r Hv. destruct f; [lia|]. cbn [parse_t]. rewrite Ht.
    match goal with |- context [parse_object ?f ?fn ?s ?r] => destruct (parse_object_nullP o rest fn s ts r f Hv) as (r1 & E & HV) end.
    rewrite E. cbn [bind]. eauto 6.
  - intros t i l js xs Ht _ (n & IH). exists (S (n + length js)). intros f Hf ts rest r Hv. destruct f; [lia|]. cbn [parse_t]. rewrite Ht.
    rewrite toks_arr in Hv. change (list_of (VList l)) with l.
    destruct (parse_array_P o rest (list_fn e f i) l (map toks js) (l ++ xs) ts r f (IH f ltac:(lia) rest 0 l)) as (r1 & E & HV).
    + intros it its' E0. destruct js as [|x l']; [discriminate|]. cbn in E0. injection E0 as <- <-.
      destruct (toks_head x) as (t0 & ts' & Ht0 & H1 & _). eauto 6.
    + exact Hv.
    + rewrite map_length. lia.
    + unfold list_fn in E. rewrite E. cbn [bind]. eauto 6.
  - intros t i m kjs kxs m' Ht Hs _ (n & IH) Hu. exists (S (n + length kjs)). intros f Hf ts rest r Hv. destruct f; [lia|]. cbn [parse_t]. rewrite Ht.
    rewrite toks_obj in Hv. change (map_of (VMap m)) with m. rewrite (updated_unique _ _ _ Hs Hu).
    destruct (parse_object_P o rest (map_fn e f i) m (ktoks kjs) (put_all m kxs) ts r f (IH f ltac:(lia) rest m)) as (r1 & E & HV).
    + exact Hv.
    + unfold ktoks. rewrite map_length. lia.
    + unfold map_fn in E. rewrite E. cbn [bind]. eauto 6.
  - intros t fs ini ob kjs ob' Ht _ (n & IH). exists (S (n + length kjs)). intros f Hf ts rest r Hv. destruct f; [lia|]. cbn [parse_t]. rewrite Ht.
    rewrite toks_obj in Hv. change (obj_of (VObj ob)) with ob.
    destruct (parse_object_P o rest (obj_fn e f fs) ob (ktoks kjs) ob' ts r f (IH f ltac:(lia) rest)) as (r1 & E & HV).
    + exact Hv.
    + unfold ktoks. rewrite map_length. lia.
    + unfold obj_fn in E. rewrite E. cbn [bind]. eauto 6.
  - intros t v Ht. exists 3. intros f Hf ts rest r Hv. destruct f; [lia|]. cbn [parse_t]. rewrite Ht.
    destruct (dyn_P o rest JNull jo_null ts r f v Hv) as (r1 & E & HV); [cbn; lia|]. rewrite E. cbn [bind]. eauto 6.
  - intros t v j Ht Hj Hn. exists (S (S (jsize j))). intros f Hf ts rest r Hv. destruct f; [lia|]. cbn [parse_t]. rewrite Ht.
    destruct (dyn_P o rest j Hj ts r f v Hv) as (r1 & E & HV); [lia|]. rewrite E. cbn [bind].
    replace (dyn_into v j) with (dyn_value j) by (destruct j; auto; contradiction). eauto 6.
  - intros i. exists 0. intros f _ rest k l. rewrite app_nil_r. constructor.
  - intros i j js x xs Hraw _ (n & IH) _ (n' & IH'). exists (n + n'). intros f Hf rest k l. cbn [map].
    replace (l ++ x :: xs) with ((l ++ [x]) ++ xs) by now rewrite <- app_assoc.
    econstructor; [|apply IH'; lia]. intros ts r Hv. destruct (IH f ltac:(lia) ts rest r Hv) as (mv & r' & E & HV & Mv).
    exists r'. unfold list_fn. rewrite E, (Mv Hraw). cbn [bind]. rewrite (W_ok _ _ _ _ HV). auto.
  - intros i. exists 0. intros f _ rest m. constructor.
  - intros i k j kjs x kxs Hraw _ (n & IH) _ (n' & IH'). exists (n + n'). intros f Hf rest m. cbn [ktoks map fst snd].
    change (put_all m ((k, x) :: kxs)) with (put_all (map_set k x m) kxs).
    econstructor; [|apply IH'; lia]. intros ts r Hv. destruct (IH f ltac:(lia) ts rest r Hv) as (mv & r' & E & HV & Mv).
    exists r'. unfold map_fn. rewrite E, (Mv Hraw). cbn [bind]. rewrite (W_ok _ _ _ _ HV). auto.
  - intros fs ob. exists 0. intros f _ rest. constructor.
  - intros fs ob a j kjs ob' Hn _ (n' & IH'). exists (S (jsize j) + n'). intros f Hf rest. cbn [ktoks map fst snd].
    econstructor; [|apply IH'; lia]. intros ts r Hv. destruct (skip_W o rest j ts r f (pview_wview _ _ _ _ Hv)) as (r' & E & HV); [lia|].
    exists r'. unfold obj_fn. rewrite (find_alias_none _ _ Hn), E. cbn [bind]. auto.
  - intros fs ob fd j x cur kjs ob' Hi Hsk Hu Hc _ (n & IH) _ (n' & IH'). exists (n + n'). intros f Hf rest. cbn [ktoks map fst snd].
    econstructor; [|apply IH'; lia]. intros ts r Hv. destruct (IH f ltac:(lia) ts rest r Hv) as (mv & r' & E & HV & Mv).
    exists r'. unfold obj_fn. rewrite (find_alias_some _ _ Hi Hsk Hu). unfold field_of. rewrite Hc, E. cbn [bind]. auto.
Qed.
End Typed.
