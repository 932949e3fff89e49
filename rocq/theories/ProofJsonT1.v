(* ProofJsonT1.v - the typed parsers read what SpecJsonT says. *)
From Coq Require String. Import String.StringSyntax.
From Verif Require Import Base Dec ModelJson ModelJsonW ModelJsonT SpecJson SpecJsonT ProofJson1 ProofJson2 ProofJson3 ProofJson4 ProofJson5 ProofJson6 ProofJson8 ProofJson9 ProofJson10.
Local Open Scope outcome_scope.

Lemma stod_ok x : float_read x -> stod x = Ok x.
Proof.
  intros (sg & d & m & Hs & Hd & Hx). pose proof (proj2 (isdigit_iff d) Hd) as Hi. unfold digit_char in Hd.
  destruct Hs as [->| ->], Hx as [->| ->]; cbn [app stod].
  - destruct (N.eqb_spec d 45) as [->|]; [lia|]. now rewrite Hi.
  - change (46 =? 45)%N with false. change (isdigit 46%N) with false. change (46 =? 46)%N with true. cbv iota. cbn [andb]. now rewrite Hi.
  - change (45 =? 45)%N with true. cbv iota. now rewrite Hi.
  - change (45 =? 45)%N with true. change (isdigit 46%N) with false. change (46 =? 46)%N with true. cbv iota. cbn [andb]. now rewrite Hi.
Qed.
Lemma float_text_read x : float_text x -> float_read x.
Proof.
  intros [sg ds fr ex Hs Hn Hd _ _ _]. destruct ds as [|d ds]; [contradiction|]. inversion Hd as [|? ? H1 H2]; subst.
  exists sg, d, (ds ++ fr ++ ex). split; [exact Hs|]. split; [exact H1|]. left. reflexivity.
Qed.

(* ---- scalars ---- *)
Lemma null_view o ts rest r : view o (ANull :: ts) rest r -> exists r', parse_null r = Ok r' /\ V o ts rest r'.
Proof.
  intro H. destruct (expect_view o ANull ts rest r TNull H eq_refl) as (r' & E & HV & _).
  exists r'. unfold parse_null. rewrite E. auto.
Qed.
Lemma bool_view o b ts rest r : view o (ABool b :: ts) rest r -> exists r', parse_bool r = Ok (b, r') /\ V o ts rest r'.
Proof.
  intro H. destruct (expect_view o (ABool b) ts rest r (TBool true) H eq_refl) as (r' & E & HV & _).
  exists r'. unfold parse_bool. rewrite E. auto.
Qed.
Lemma int_view o z ts rest r : int64 z -> view o (AInt z :: ts) rest r -> exists r', parse_int r = Ok (z, r') /\ V o ts rest r'.
Proof.
  intros Hz H. destruct (expect_view o (AInt z) ts rest r TInt H eq_refl) as (r' & E & HV & HP).
  exists r'. unfold parse_int. rewrite E. cbn [bind tok_of as_int]. cbn [payload] in HP. now rewrite (stol_ok z _ HP Hz).
Qed.
Lemma str_view o s ts rest r : view o (AStr s :: ts) rest r -> exists r', parse_string r = Ok (s, r') /\ V o ts rest r'.
Proof.
  intros H. destruct (expect_view o (AStr s) ts rest r TStr H eq_refl) as (r' & E & HV & HP).
  exists r'. unfold parse_string. rewrite E. cbn [bind tok_of as_string]. cbn [payload] in HP. now rewrite HP.
Qed.
Lemma float_view o x ts rest r : float_read x -> view o (AFloat x :: ts) rest r -> exists r', parse_float r = Ok (x, r') /\ V o ts rest r'.
Proof.
  intros Hx H. destruct (next_view o (AFloat x) ts rest r H) as (r' & E & HV & HP).
  exists r'. unfold parse_float. rewrite E. cbn [bind tok_of same_type assert_tok as_float]. unfold assert_tok. cbn [same_type].
  cbn [payload] in HP. now rewrite HP, (stod_ok x Hx).
Qed.

(* ---- documents without a type ---- *)
Definition dyn_into (v : val) (j : json) : val := match j with JNull => v | _ => dyn_value j end.

Lemma firsts_step seen (k : str) (x : val) l : firsts seen ((k, x) :: l) = if smem k seen then firsts seen l else (k, x) :: firsts (k :: seen) l.
Proof. reflexivity. Qed.
Lemma firsts_perm {V : Type} (l : list (str * V)) : forall a b, (forall k, smem k a = smem k b) -> firsts a l = firsts b l.
Proof.
  induction l as [|[k x] l IH]; intros a b H; cbn [firsts]; auto. rewrite H. destruct (smem k b); auto. f_equal. apply IH.
  intro k'. cbn [smem]. now rewrite H.
Qed.
Lemma smem_ahas {V : Type} k (m : list (str * V)) : smem k (akeys m) = ahas k m.
Proof.
  destruct (ahas k m) eqn:E.
  - apply smem_In. now apply ahas_In.
  - destruct (smem k (akeys m)) eqn:F; auto. apply smem_In, ahas_In in F. congruence.
Qed.

Lemma dyn_view o rest j : json_ok j -> forall ts r fuel v, view o (toks j ++ ts) rest r -> jsize j < fuel ->
  exists r', parse_dyn fuel v r = Ok (dyn_into v j, r') /\ V o ts rest r'.
Proof.
  induction j as [| | | | |l IH|l IH] using json_ind'; intros Hj ts r fuel v Hv Hf;
    (destruct fuel as [|f]; [lia|]); cbn [parse_dyn].
  - cbn [toks app] in Hv. destruct (peek_view _ _ _ _ _ Hv) as (r1 & E & Hv1). rewrite E. cbn [bind tok_of].
    destruct (null_view _ _ _ _ Hv1) as (r2 & E2 & HV). rewrite E2. cbn [bind]. eauto.
  - cbn [toks app] in Hv. destruct (peek_view _ _ _ _ _ Hv) as (r1 & E & Hv1). rewrite E. cbn [bind tok_of].
    destruct (bool_view _ _ _ _ _ Hv1) as (r2 & E2 & HV). rewrite E2. cbn [bind]. eauto.
  - cbn [toks app] in Hv. destruct (peek_view _ _ _ _ _ Hv) as (r1 & E & Hv1). rewrite E. cbn [bind tok_of].
    inversion Hj; subst. destruct (int_view _ _ _ _ _ ltac:(eassumption) Hv1) as (r2 & E2 & HV). rewrite E2. cbn [bind]. eauto.
  - cbn [toks app] in Hv. destruct (peek_view _ _ _ _ _ Hv) as (r1 & E & Hv1). rewrite E. cbn [bind tok_of].
    inversion Hj; subst. destruct (float_view _ _ _ _ _ ltac:(eassumption) Hv1) as (r2 & E2 & HV). rewrite E2. cbn [bind]. eauto.
  - cbn [toks app] in Hv. destruct (peek_view _ _ _ _ _ Hv) as (r1 & E & Hv1). rewrite E. cbn [bind tok_of].
    destruct (str_view _ _ _ _ _ Hv1) as (r2 & E2 & HV). rewrite E2. cbn [bind]. eauto.
  - rewrite toks_arr in Hv. unfold arr_toks in Hv. cbn [app] in Hv.
    destruct (peek_view _ _ _ _ _ Hv) as (r1 & E & Hv1). rewrite E. cbn [bind tok_of].
    inversion Hj as [| | | | |l' Hl|]; subst.
    assert (Hc : forall l' : list json, (forall x, In x l' -> In x l) -> forall i acc,
      chain o rest (fun _ l r => do (x, r') <- parse_dyn f VVoid r; Ok (l ++ [x], r')) i acc (map toks l') (acc ++ map dyn_value l')).
    { induction l' as [|x l' IHl]; intros Hin i acc; cbn [map].
      - rewrite app_nil_r. constructor.
      - replace (acc ++ dyn_value x :: map dyn_value l') with ((acc ++ [dyn_value x]) ++ map dyn_value l') by now rewrite <- app_assoc.
        econstructor; [|apply IHl; intros; apply Hin; now right].
        intros ts0 r0 H0. rewrite Forall_forall in IH. assert (Hx : In x l) by (apply Hin; now left).
        destruct (IH x Hx (Hl x Hx) ts0 r0 f VVoid H0) as (r' & E' & HV').
        { pose proof (jsize_in_arr l x Hx). lia. }
        exists r'. rewrite E'. cbn [bind]. split; [|exact HV']. now destruct x. }
    destruct (parse_array_view o rest _ [] (map toks l) _ ts r1 f (Hc l (fun _ H => H) 0 [])) as (r2 & E2 & HV).
    + intros it its' E0. destruct l as [|x l']; [discriminate|]. cbn in E0. injection E0 as <- <-.
      destruct (toks_head x) as (t & ts' & Ht & H1 & _). eauto.
    + exact Hv1.
    + rewrite map_length. pose proof (jsize_len_arr l). lia.
    + rewrite E2. cbn [bind]. exists r2. split; [reflexivity|exact HV].
  - rewrite toks_obj in Hv. unfold obj_toks in Hv. cbn [app] in Hv.
    destruct (peek_view _ _ _ _ _ Hv) as (r1 & E & Hv1). rewrite E. cbn [bind tok_of].
    inversion Hj as [| | | | | |l' Hl]; subst.
    assert (Hc : forall l' : list (str * json), (forall x, In x l' -> In x l) -> forall acc,
      kchain o rest (fun k m r => do (x, r') <- parse_dyn f VVoid r; Ok (if ahas k m then m else m ++ [(k, x)], r')) acc
        (map (fun kv => (fst kv, toks (snd kv))) l')
        (acc ++ firsts (akeys acc) (map (fun kv => (fst kv, dyn_value (snd kv))) l'))).
    { induction l' as [|[k x] l' IHl]; intros Hin acc; cbn [map].
      - cbn [firsts]. rewrite app_nil_r. constructor.
      - cbn [fst snd]. econstructor.
        + intros ts0 r0 H0. rewrite Forall_forall in IH. assert (Hx : In (k, x) l) by (apply Hin; now left).
          destruct (IH (k, x) Hx (Hl k x Hx) ts0 r0 f VVoid H0) as (r' & E' & HV').
          { pose proof (jsize_in_obj l (k, x) Hx). lia. }
          exists r'. rewrite E'. cbn [bind snd]. split; [reflexivity|exact HV'].
        + rewrite firsts_step, smem_ahas.
          replace (dyn_into VVoid x) with (dyn_value x) by now destruct x.
          destruct (ahas k acc).
          * apply IHl. intros; apply Hin; now right.
          * replace (acc ++ (k, dyn_value x) :: firsts (k :: akeys acc) (map (fun kv => (fst kv, dyn_value (snd kv))) l'))
              with ((acc ++ [(k, dyn_value x)]) ++ firsts (akeys (acc ++ [(k, dyn_value x)])) (map (fun kv => (fst kv, dyn_value (snd kv))) l')).
            { apply IHl. intros; apply Hin; now right. }
            rewrite <- app_assoc. f_equal. cbn [app]. f_equal. apply firsts_perm. intro k'. unfold akeys. rewrite map_app. cbn [map fst].
            destruct (smem k' (map fst acc ++ [k])) eqn:F; symmetry.
            { apply smem_In in F. apply smem_In. apply in_app_or in F as [F|[F|[]]]; [right|left]; auto. }
            { destruct (smem k' (k :: map fst acc)) eqn:G; auto. apply smem_In in G.
              assert (In k' (map fst acc ++ [k])) by (destruct G as [G|G]; apply in_or_app; [right; now left|now left]).
              apply smem_In in H. congruence. } }
    destruct (parse_object_view o rest _ [] _ _ ts r1 f (Hc l (fun _ H => H) [])) as (r2 & E2 & HV).
    + exact Hv1.
    + rewrite map_length. pose proof (jsize_len_obj l). lia.
    + rewrite E2. cbn [bind]. exists r2. split; [reflexivity|exact HV].
Qed.

(* ---- maps ---- *)
Lemma sorted_NoDup l : sorted l -> NoDup l.
Proof.
  induction l as [|a l IH]; intro H; constructor; cbn in H.
  - intro Hi. destruct H as [H _]. specialize (H a Hi). rewrite str_ltb_irrefl in H. discriminate.
  - apply IH. tauto.
Qed.

Lemma map_set_keys k v m x : In x (akeys (map_set k v m)) -> x = k \/ In x (akeys m).
Proof.
  induction m as [|[k' v'] m IH]; cbn.
  - intuition auto.
  - destruct (str_eqb_spec k k') as [->|]; cbn; [intuition auto|].
    destruct (str_ltb k k'); cbn; intuition auto.
Qed.
Lemma map_set_sorted k v m : sorted (akeys m) -> sorted (akeys (map_set k v m)).
Proof.
  induction m as [|[k' v'] m IH]; intro H.
  - cbn. split; [intros b []|exact I].
  - cbn [akeys map fst] in H. destruct H as [H1 H2]. cbn [map_set].
    destruct (str_eqb_spec k k') as [->|Hne]; [cbn; auto|].
    destruct (str_ltb k k') eqn:L.
    + cbn [akeys map fst sorted]. split; [|split; auto]. intros b [<-|Hb]; auto. eapply str_ltb_trans; eauto.
    + cbn [akeys map fst sorted]. split; [|apply IH; exact H2].
      intros b Hb. apply map_set_keys in Hb as [->|Hb]; auto.
      destruct (str_ltb_total k k') as [->|[C|C]]; congruence.
Qed.
Lemma afind_map_set k v m x : sorted (akeys m) -> afind x (map_set k v m) = if str_eqb x k then Some v else afind x m.
Proof.
  induction m as [|[k' v'] m IH]; intro H; [reflexivity|].
  cbn [akeys map fst] in H. destruct H as [H1 H2]. cbn [map_set].
  destruct (str_eqb_spec k k') as [->|Hne].
  - cbn [afind]. destruct (str_eqb x k'); reflexivity.
  - destruct (str_ltb k k') eqn:L.
    + reflexivity.
    + cbn [afind]. rewrite IH by exact H2. destruct (str_eqb_spec x k') as [Hx|Hx]; [|reflexivity].
      destruct (str_eqb_spec x k); congruence.
Qed.
Lemma sorted_ext (m m' : list (str * val)) : sorted (akeys m) -> sorted (akeys m') -> (forall k, afind k m = afind k m') -> m = m'.
Proof.
  revert m'. induction m as [|[k v] m IH]; intros m' S S' H.
  - destruct m' as [|[k v] m']; auto. specialize (H k). cbn in H. rewrite str_eqb_refl in H. discriminate.
  - destruct m' as [|[k' v'] m']; [specialize (H k); cbn in H; rewrite str_eqb_refl in H; discriminate|].
    cbn [akeys map fst sorted] in S, S'. destruct S as [S1 S2], S' as [S1' S2'].
    assert (Ek : k = k').
    { pose proof (H k) as A. pose proof (H k') as B. cbn in A, B. rewrite str_eqb_refl in *.
      destruct (str_eqb_spec k k') as [->|Hne]; auto. destruct (str_eqb_spec k' k) as [->|]; auto.
      symmetry in A. apply afind_Some_key in A. apply afind_Some_key in B.
      pose proof (S1' _ A) as C. pose proof (S1 _ B) as D. rewrite (str_ltb_asym _ _ C) in D. discriminate. }
    subst k'. pose proof (H k) as A. cbn in A. rewrite str_eqb_refl in A. injection A as <-. f_equal.
    apply IH; auto. intro x. destruct (str_eqb_spec x k) as [->|Hne].
    + transitivity (@None val).
      * apply afind_None. intro C. specialize (S1 _ C). rewrite str_ltb_irrefl in S1. discriminate.
      * symmetry. apply afind_None. intro C. specialize (S1' _ C). rewrite str_ltb_irrefl in S1'. discriminate.
    + specialize (H x). cbn in H. destruct (str_eqb_spec x k); [contradiction|exact H].
Qed.
Definition put_all (m : list (str * val)) (l : list (str * val)) : list (str * val) :=
  fold_left (fun m kx => map_set (fst kx) (snd kx) m) l m.
Lemma put_all_updated l : forall m, sorted (akeys m) -> updated m l (put_all m l).
Proof.
  induction l as [|[k x] l IH]; intros m H; cbn [put_all fold_left].
  - split; [exact H|]. intro; reflexivity.
  - destruct (IH (map_set k x m) (map_set_sorted _ _ _ H)) as [A B]. split; [exact A|]. intro k'. unfold put_all in B. cbn [fst snd].
    rewrite B. cbn [last_of]. destruct (last_of k' l); auto. rewrite afind_map_set by exact H. destruct (str_eqb k' k); auto.
Qed.
Lemma updated_unique m l m' : sorted (akeys m) -> updated m l m' -> m' = put_all m l.
Proof.
  intros H [A B]. destruct (put_all_updated l m H) as [C D]. apply sorted_ext; auto. intro k. now rewrite B, D.
Qed.

(* ---- objects ---- *)
Lemma name_same f : f_name f = json_name f. Proof. reflexivity. Qed.
Lemma find_alias_none fs a : (forall f, In f fs -> f_skip f = false -> json_name f <> a) -> find_alias fs a = None.
Proof.
  intro H. unfold find_alias. destruct (find _ _) as [f|] eqn:E; auto. apply find_some in E as [Hi Ha].
  unfold obj_fields in Hi. apply filter_In in Hi as [Hi Hs]. apply str_eqb_eq in Ha.
  destruct (H f Hi); [now destruct (f_skip f)|now rewrite <- name_same].
Qed.
Lemma find_alias_some fs f : In f fs -> f_skip f = false ->
  (forall g, In g fs -> f_skip g = false -> json_name g = json_name f -> g = f) -> find_alias fs (json_name f) = Some f.
Proof.
  intros Hi Hs Hu. unfold find_alias. destruct (find _ _) as [g|] eqn:E.
  - apply find_some in E as [Hg Ha]. unfold obj_fields in Hg. apply filter_In in Hg as [Hg Hgs]. apply str_eqb_eq in Ha.
    f_equal. apply Hu; auto. now destruct (f_skip g).
  - assert (Hif : In f (obj_fields fs)) by (unfold obj_fields; apply filter_In; rewrite Hs; auto).
    pose proof (find_none _ _ E f Hif) as C. cbv beta in C. change (f_name f) with (json_name f) in C; rewrite str_eqb_refl in C. discriminate.
Qed.

Lemma null_not_tok j : j <> JNull -> exists t ts, toks j = t :: ts /\ same_type (tok_of t) TNull = false.
Proof. destruct j; intro H; try contradiction; cbn [toks]; do 2 eexists; split; reflexivity. Qed.

(* ---- typed parsing ---- *)
Section Typed.
Variables (o : ropts) (e : env).

Definition parses (t : nat) (v : val) (j : json) (v' : val) : Prop :=
  exists n, forall f, n <= f -> forall ts rest r, view o (toks j ++ ts) rest r ->
    exists mv r', parse_t f e t v r = Ok (v', mv, r') /\ V o ts rest r' /\ (~ raw_null e t j -> mv = false).

Definition list_fn (f i : nat) := (fun (_ : nat) (l : list val) (r : reader) =>
        do (x, moved, r') <- parse_t f e i (dval e i) r;
        if rok r' then (if moved then Abort else Ok (l ++ [x], r')) else Ok (l, r')).
Definition map_fn (f i : nat) := (fun (k : str) (m : list (str * val)) (r : reader) =>
        do (x, moved, r') <- parse_t f e i (dval e i) r;
        if rok r' then (if moved then Abort else Ok (map_set k x m, r')) else Ok (m, r')).
Definition obj_fn (f : nat) (fs : list field) := (fun (a : str) (o : list (str * val)) (r : reader) =>
        match find_alias fs a with
        | None => do r' <- skip f r; Ok (o, r')
        | Some fd =>
          do (x, _, r') <- parse_t f e (f_type fd) (field_of (f_key fd) o) r;
          Ok (aset (f_key fd) x o, r')
        end).

Definition parses_items (i : nat) (js : list json) (xs : list val) : Prop :=
  exists n, forall f, n <= f -> forall rest k l, chain o rest (list_fn f i) k l (map toks js) (l ++ xs).
Definition ktoks (kjs : list (str * json)) := map (fun kv => (fst kv, toks (snd kv))) kjs.
Definition parses_pairs (i : nat) (kjs : list (str * json)) (kxs : list (str * val)) : Prop :=
  exists n, forall f, n <= f -> forall rest m, kchain o rest (map_fn f i) m (ktoks kjs) (put_all m kxs).
Definition parses_members (fs : list field) (ob : list (str * val)) (kjs : list (str * json)) (ob' : list (str * val)) : Prop :=
  exists n, forall f, n <= f -> forall rest, kchain o rest (obj_fn f fs) ob (ktoks kjs) ob'.

Lemma reads_parses :
  (forall t v j v', reads e t v j v' -> parses t v j v') /\
  (forall i js xs, reads_items e i js xs -> parses_items i js xs) /\
  (forall i kjs kxs, reads_pairs e i kjs kxs -> parses_pairs i kjs kxs) /\
  (forall fs ob kjs ob', reads_members e fs ob kjs ob' -> parses_members fs ob kjs ob').
Proof.
  apply reads_comb.
  - intros t v b Ht. exists 1. intros f Hf ts rest r Hv. destruct f; [lia|]. cbn [parse_t]. rewrite Ht.
    destruct (bool_view _ _ _ _ _ Hv) as (r1 & E & HV). rewrite E. cbn [bind]. eauto 6.
  - intros t v z Ht Hz. exists 1. intros f Hf ts rest r Hv. destruct f; [lia|]. cbn [parse_t]. rewrite Ht.
    destruct (int_view _ _ _ _ _ Hz Hv) as (r1 & E & HV). rewrite E. cbn [bind]. eauto 6.
  - intros t v x Ht Hx. exists 1. intros f Hf ts rest r Hv. destruct f; [lia|]. cbn [parse_t]. rewrite Ht.
    destruct (float_view _ _ _ _ _ Hx Hv) as (r1 & E & HV). rewrite E. cbn [bind]. eauto 6.
  - intros t v s Ht. exists 1. intros f Hf ts rest r Hv. destruct f; [lia|]. cbn [parse_t]. rewrite Ht.
    destruct (str_view _ _ _ _ _ Hv) as (r1 & E & HV). rewrite E. cbn [bind]. eauto 6.
  - intros t i v Ht. exists 1. intros f Hf ts rest r Hv. destruct f; [lia|]. cbn [parse_t]. rewrite Ht.
    destruct (peek_view _ _ _ _ _ Hv) as (r1 & E & Hv1). rewrite E. cbn [bind tok_of same_type].
    destruct (next_view _ _ _ _ _ Hv1) as (r2 & E2 & HV & _). rewrite E2. cbn [bind negb]. eauto 6.
  - intros t i v Ht. exists 1. intros f Hf ts rest r Hv. destruct f; [lia|]. cbn [parse_t]. rewrite Ht.
    destruct (peek_view _ _ _ _ _ Hv) as (r1 & E & Hv1). rewrite E. cbn [bind tok_of same_type].
    destruct (next_view _ _ _ _ _ Hv1) as (r2 & E2 & HV & _). rewrite E2. cbn [bind negb]. exists true, r2. repeat split; auto.
    intro Hr. exfalso. apply Hr. split; [reflexivity|eauto].
  - intros t sm i p j p' Ht Hj _ (n & IH). exists (S n). intros f Hf ts rest r Hv. destruct f; [lia|]. cbn [parse_t]. rewrite Ht.
    destruct (null_not_tok j Hj) as (t0 & ts0 & E0 & Hn). rewrite E0 in Hv. cbn [app] in Hv.
    destruct (peek_view _ _ _ _ _ Hv) as (r1 & E & Hv1). rewrite E. cbn [bind]. rewrite Hn.
    change (t0 :: ts0 ++ ts) with ((t0 :: ts0) ++ ts) in Hv1. rewrite <- E0 in Hv1.
    destruct (IH f ltac:(lia) ts rest r1 Hv1) as (mv & r2 & E2 & HV & _).
    destruct p as [x|]; rewrite E2; cbn [bind]; eauto 6.
  - intros t i l Ht. exists 1. intros f Hf ts rest r Hv. destruct f; [lia|]. cbn [parse_t]. rewrite Ht.
    match goal with |- context [parse_array ?f ?fn ?s ?r] => destruct (parse_array_null o rest fn s ts r f Hv) as (r1 & E & HV) end.
    rewrite E. cbn [bind]. eauto 6.
  - intros t i m Ht. exists 1. intros f Hf ts rest r Hv. destruct f; [lia|]. cbn [parse_t]. rewrite Ht.
    match goal with |- context [parse_object ?f ?fn ?s ?r] => destruct (parse_object_null o rest fn s ts r f Hv) as (r1 & E & HV) end.
    rewrite E. cbn [bind]. eauto 6.
  - intros t fs ini ob Ht. exists 1. intros f Hf ts rest r Hv. destruct f; [lia|]. cbn [parse_t]. rewrite Ht.
    match goal with |- context [parse_object ?f ?fn ?s ?r] => destruct (parse_object_null o rest fn s ts r f Hv) as (r1 & E & HV) end.
    rewrite E. cbn [bind]. eauto 6.
  - intros t i l js xs Ht _ (n & IH). exists (S (n + length js)). intros f Hf ts rest r Hv. destruct f; [lia|]. cbn [parse_t]. rewrite Ht.
    rewrite toks_arr in Hv. change (list_of (VList l)) with l.
    destruct (parse_array_view o rest (list_fn f i) l (map toks js) (l ++ xs) ts r f (IH f ltac:(lia) rest 0 l)) as (r1 & E & HV).
    + intros it its' E0. destruct js as [|x l']; [discriminate|]. cbn in E0. injection E0 as <- <-.
      destruct (toks_head x) as (t0 & ts' & Ht0 & H1 & _). eauto 6.
    + exact Hv.
    + rewrite map_length. lia.
    + unfold list_fn in E. rewrite E. cbn [bind]. eauto 6.
  - intros t i m kjs kxs m' Ht Hs _ (n & IH) Hu. exists (S (n + length kjs)). intros f Hf ts rest r Hv. destruct f; [lia|]. cbn [parse_t]. rewrite Ht.
    rewrite toks_obj in Hv. change (map_of (VMap m)) with m. rewrite (updated_unique _ _ _ Hs Hu).
    destruct (parse_object_view o rest (map_fn f i) m (ktoks kjs) (put_all m kxs) ts r f (IH f ltac:(lia) rest m)) as (r1 & E & HV).
    + exact Hv.
    + unfold ktoks. rewrite map_length. lia.
    + unfold map_fn in E. rewrite E. cbn [bind]. eauto 6.
  - intros t fs ini ob kjs ob' Ht _ (n & IH). exists (S (n + length kjs)). intros f Hf ts rest r Hv. destruct f; [lia|]. cbn [parse_t]. rewrite Ht.
    rewrite toks_obj in Hv. change (obj_of (VObj ob)) with ob.
    destruct (parse_object_view o rest (obj_fn f fs) ob (ktoks kjs) ob' ts r f (IH f ltac:(lia) rest)) as (r1 & E & HV).
    + exact Hv.
    + unfold ktoks. rewrite map_length. lia.
    + unfold obj_fn in E. rewrite E. cbn [bind]. eauto 6.
  - intros t v Ht. exists 3. intros f Hf ts rest r Hv. destruct f; [lia|]. cbn [parse_t]. rewrite Ht.
    destruct (dyn_view o rest JNull jo_null ts r f v Hv) as (r1 & E & HV); [cbn; lia|]. rewrite E. cbn [bind]. eauto 6.
  - intros t v j Ht Hj Hn. exists (S (S (jsize j))). intros f Hf ts rest r Hv. destruct f; [lia|]. cbn [parse_t]. rewrite Ht.
    destruct (dyn_view o rest j Hj ts r f v Hv) as (r1 & E & HV); [lia|]. rewrite E. cbn [bind].
    replace (dyn_into v j) with (dyn_value j) by (destruct j; auto; contradiction). eauto 6.
  - intros i. exists 0. intros f _ rest k l. rewrite app_nil_r. constructor.
  - intros i j js x xs Hraw _ (n & IH) _ (n' & IH'). exists (n + n'). intros f Hf rest k l. cbn [map].
    replace (l ++ x :: xs) with ((l ++ [x]) ++ xs) by now rewrite <- app_assoc.
    econstructor; [|apply IH'; lia]. intros ts r Hv. destruct (IH f ltac:(lia) ts rest r Hv) as (mv & r' & E & HV & Mv).
    exists r'. unfold list_fn. rewrite E, (Mv Hraw). cbn [bind]. rewrite (V_ok _ _ _ _ HV). auto.
  - intros i. exists 0. intros f _ rest m. constructor.
  - intros i k j kjs x kxs Hraw _ (n & IH) _ (n' & IH'). exists (n + n'). intros f Hf rest m. cbn [ktoks map fst snd].
    change (put_all m ((k, x) :: kxs)) with (put_all (map_set k x m) kxs).
    econstructor; [|apply IH'; lia]. intros ts r Hv. destruct (IH f ltac:(lia) ts rest r Hv) as (mv & r' & E & HV & Mv).
    exists r'. unfold map_fn. rewrite E, (Mv Hraw). cbn [bind]. rewrite (V_ok _ _ _ _ HV). auto.
  - intros fs ob. exists 0. intros f _ rest. constructor.
  - intros fs ob a j kjs ob' Hn _ (n' & IH'). exists (S (jsize j) + n'). intros f Hf rest. cbn [ktoks map fst snd].
    econstructor; [|apply IH'; lia]. intros ts r Hv. destruct (skip_view o rest j ts r f Hv) as (r' & E & HV); [lia|].
    exists r'. unfold obj_fn. rewrite (find_alias_none _ _ Hn), E. cbn [bind]. auto.
  - intros fs ob fd j x cur kjs ob' Hi Hsk Hu Hc _ (n & IH) _ (n' & IH'). exists (n + n'). intros f Hf rest. cbn [ktoks map fst snd].
    econstructor; [|apply IH'; lia]. intros ts r Hv. destruct (IH f ltac:(lia) ts rest r Hv) as (mv & r' & E & HV & Mv).
    exists r'. unfold obj_fn. rewrite (find_alias_some _ _ Hi Hsk Hu). unfold field_of. rewrite Hc, E. cbn [bind]. auto.
Qed.
End Typed.
