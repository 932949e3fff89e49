(* ProofJsonS3.v - proofs: skip needs exactly the levels of the document. *)
From Verif Require Import Base Dec ModelJson ModelJsonW ModelJsonT SpecJson ProofJson1 ProofJson2 ProofJson3 ProofJson7 ModelJsonS SpecJsonS.
From Coq Require Import Lia.
Local Open Scope outcome_scope.
Local Open Scope nat_scope.

Inductive fchain {S : Type} (o : ropts) (rest : str) (fn : nat -> S -> reader -> outcome (S * reader))
  : nat -> S -> list (list atok) -> Prop :=
| fc_here i s it its :
    (forall ts r, view o (it ++ ts) rest r -> fn i s r = OutOfFuel) -> fchain o rest fn i s (it :: its)
| fc_next i s it its s1 :
    (forall ts r, view o (it ++ ts) rest r -> exists r', fn i s r = Ok (s1, r') /\ V o ts rest r') ->
    fchain o rest fn (Datatypes.S i) s1 its -> fchain o rest fn i s (it :: its).
Inductive fkchain {S : Type} (o : ropts) (rest : str) (fn : str -> S -> reader -> outcome (S * reader))
  : S -> list (str * list atok) -> Prop :=
| fk_here s k it its :
    (forall ts r, view o (it ++ ts) rest r -> fn k s r = OutOfFuel) -> fkchain o rest fn s ((k, it) :: its)
| fk_next s k it its s1 :
    (forall ts r, view o (it ++ ts) rest r -> exists r', fn k s r = Ok (s1, r') /\ V o ts rest r') ->
    fkchain o rest fn s1 its -> fkchain o rest fn s ((k, it) :: its).

Lemma array_loop_out {S : Type} o rest (fn : nat -> S -> reader -> outcome (S * reader)) i s its :
  fchain o rest fn i s its -> forall ts r fuel,
  view o (sep_by its ++ AArrE :: ts) rest r -> array_loop fuel fn i s r = OutOfFuel.
Proof.
  induction 1 as [i s it its Hbad|i s it its s1 Hstep Hc IH]; intros ts r fuel Hv;
    (destruct fuel as [|fuel]; [reflexivity|]); cbn [array_loop]; rewrite (view_ok _ _ _ _ Hv).
  - assert (Hv' : exists tl, view o (it ++ tl) rest r).
    { destruct its; cbn [sep_by] in Hv; [eauto|]. rewrite <- app_assoc in Hv. eauto. }
    destruct Hv' as (tl & Hv'). rewrite (Hbad _ _ Hv'). reflexivity.
  - destruct its as [|it2 its]; [inversion Hc|].
    assert (Hv' : view o (it ++ ASep :: sep_by (it2 :: its) ++ AArrE :: ts) rest r).
    { cbn [sep_by] in *. rewrite <- app_assoc in Hv. exact Hv. }
    destruct (Hstep _ _ Hv') as (r1 & E1 & K1). rewrite E1. cbn [bind].
    destruct (next_view _ _ _ _ _ (V_view _ _ _ _ K1)) as (r2 & E2 & K2 & _). rewrite E2. cbn [bind tok_of same_type].
    unfold assert_tok. cbn [same_type]. exact (IH _ _ _ (V_view _ _ _ _ K2)).
Qed.
Lemma parse_array_out {S : Type} o rest (fn : nat -> S -> reader -> outcome (S * reader)) s its ts r fuel :
  fchain o rest fn 0 s its ->
  (forall it its', its = it :: its' -> exists t it', it = t :: it' /\ t <> AArrE) ->
  view o (arr_toks its ++ ts) rest r -> parse_array fuel fn s r = OutOfFuel.
Proof.
  intros Hc Hh Hv. unfold arr_toks in Hv. cbn [app] in Hv. unfold parse_array.
  destruct (next_view _ _ _ _ _ Hv) as (r1 & E1 & K1 & _). rewrite E1. cbn [bind tok_of same_type].
  unfold assert_tok. cbn [same_type]. rewrite <- app_assoc in K1. cbn [app] in K1.
  destruct its as [|it its]; [inversion Hc|].
  destruct (Hh it its eq_refl) as (t & it' & -> & Ht).
  assert (Hs : exists u, sep_by ((t :: it') :: its) = t :: u)
    by (destruct its; cbn [sep_by app]; eexists; reflexivity).
  destruct Hs as (u & Hs). pose proof K1 as K1'. rewrite Hs in K1'. cbn [app] in K1'.
  destruct (peek_view _ _ _ _ _ (V_view _ _ _ _ K1')) as (r2 & E2 & K2). rewrite E2. cbn [bind].
  replace (same_type (tok_of t) TArrE) with false by (destruct t; cbn; congruence).
  assert (K2' : view o (sep_by ((t :: it') :: its) ++ AArrE :: ts) rest r2) by (rewrite Hs; exact K2).
  exact (array_loop_out o rest fn 0 s _ Hc ts r2 fuel K2').
Qed.

Lemma object_loop_out {S : Type} o rest (fn : str -> S -> reader -> outcome (S * reader)) s its :
  fkchain o rest fn s its -> forall ts r fuel,
  view o (sep_by (map member_toks its) ++ AObjE :: ts) rest r -> object_loop fuel fn s r = OutOfFuel.
Proof.
  induction 1 as [s k it its Hbad|s k it its s1 Hstep Hc IH]; intros ts r fuel Hv;
    (destruct fuel as [|fuel]; [reflexivity|]); cbn [object_loop]; rewrite (view_ok _ _ _ _ Hv).
  - assert (Hv' : exists tl, view o (AStr k :: AKey :: it ++ tl) rest r).
    { destruct its as [|kv its].
      - cbn [sep_by map member_toks fst snd app] in Hv. eauto.
      - change (map member_toks ((k, it) :: kv :: its)) with ((AStr k :: AKey :: it) :: map member_toks (kv :: its)) in Hv.
        change (map member_toks (kv :: its)) with (member_toks kv :: map member_toks its) in *.
        cbn [sep_by] in Hv. rewrite <- app_assoc in Hv. cbn [app] in Hv. eauto. }
    destruct Hv' as (tl & Hv').
    destruct (expect_view _ _ _ _ _ TStr Hv' eq_refl) as (r1 & E1 & K1 & P1).
    cbn [payload] in P1. destruct (next_key_buf _ _ _ _ K1) as (r2 & E2 & K2 & B2).
    rewrite E1. cbn [bind tok_of as_string]. rewrite E2. cbn [bind].
    rewrite B2, P1, (Hbad _ _ (V_view _ _ _ _ K2)). reflexivity.
  - destruct its as [|kit2 its]; [inversion Hc|].
    assert (Hv' : view o (AStr k :: AKey :: it ++ ASep :: sep_by (map member_toks (kit2 :: its)) ++ AObjE :: ts) rest r).
    { change (map member_toks ((k, it) :: kit2 :: its)) with ((AStr k :: AKey :: it) :: map member_toks (kit2 :: its)) in Hv.
      change (map member_toks (kit2 :: its)) with (member_toks kit2 :: map member_toks its) in *.
      cbn [sep_by] in *. rewrite <- app_assoc in Hv. exact Hv. }
    destruct (expect_view _ _ _ _ _ TStr Hv' eq_refl) as (r1 & E1 & K1 & P1).
    cbn [payload] in P1. destruct (next_key_buf _ _ _ _ K1) as (r2 & E2 & K2 & B2).
    destruct (Hstep _ r2 (V_view _ _ _ _ K2)) as (r3 & E3 & K3).
    rewrite E1. cbn [bind tok_of as_string]. rewrite E2. cbn [bind]. rewrite B2, P1, E3. cbn [bind].
    destruct (next_view _ _ _ _ _ (V_view _ _ _ _ K3)) as (r4 & E4 & K4 & _). rewrite E4. cbn [bind tok_of same_type].
    unfold assert_tok. cbn [same_type]. exact (IH _ _ _ (V_view _ _ _ _ K4)).
Qed.
Lemma parse_object_out {S : Type} o rest (fn : str -> S -> reader -> outcome (S * reader)) s its ts r fuel :
  fkchain o rest fn s its -> view o (obj_toks its ++ ts) rest r -> parse_object fuel fn s r = OutOfFuel.
Proof.
  intros Hc Hv. unfold obj_toks in Hv. cbn [app] in Hv. unfold parse_object.
  destruct (next_view _ _ _ _ _ Hv) as (r1 & E1 & K1 & _). rewrite E1. cbn [bind tok_of same_type].
  unfold assert_tok. cbn [same_type]. rewrite <- app_assoc in K1. cbn [app] in K1.
  destruct its as [|[k it] its]; [inversion Hc|].
  assert (Hs : exists u, sep_by (map member_toks ((k, it) :: its)) = AStr k :: u)
    by (destruct its; cbn [sep_by map member_toks fst snd app]; eexists; reflexivity).
  destruct Hs as (u & Hs). pose proof K1 as K1'. rewrite Hs in K1'. cbn [app] in K1'.
  destruct (peek_view _ _ _ _ _ (V_view _ _ _ _ K1')) as (r2 & E2 & K2). rewrite E2. cbn [bind tok_of same_type].
  assert (K2' : view o (sep_by (map member_toks ((k, it) :: its)) ++ AObjE :: ts) rest r2) by (rewrite Hs; exact K2).
  exact (object_loop_out o rest fn s _ Hc ts r2 fuel K2').
Qed.

(* ---- skip ---- *)
Definition skips (o : ropts) (rest : str) (d n : nat) (x : json) : Prop := forall ts r, view o (toks x ++ ts) rest r ->
  exists r', skip_s d n r = Ok r' /\ V o ts rest r'.
Definition stuck (o : ropts) (rest : str) (d n : nat) (x : json) : Prop := forall ts r, view o (toks x ++ ts) rest r ->
  skip_s d n r = OutOfFuel.

Lemma chain_s o rest d n l : Forall (skips o rest d n) l ->
  forall i, chain o rest (fun _ (_ : unit) r => do r' <- skip_s d n r; Ok (tt, r')) i tt (map toks l) tt.
Proof.
  induction 1 as [|x l Hx Hl IHl]; intros i; cbn [map]; econstructor; [|apply IHl].
  intros ts r Hv. destruct (Hx ts r Hv) as (r' & E & K). rewrite E. cbn [bind]. eauto.
Qed.
Lemma kchain_s o rest d n (l : list (str * json)) : Forall (fun kv => skips o rest d n (snd kv)) l ->
  kchain o rest (fun _ (_ : unit) r => do r' <- skip_s d n r; Ok (tt, r')) tt
         (map (fun kv => (fst kv, toks (snd kv))) l) tt.
Proof.
  induction 1 as [|x l Hx Hl IHl]; cbn [map]; econstructor; [|apply IHl].
  intros ts r Hv. destruct (Hx ts r Hv) as (r' & E & K). rewrite E. cbn [bind]. eauto.
Qed.
Lemma fchain_s o rest d n l : Forall (fun x => skips o rest d n x \/ stuck o rest d n x) l -> Exists (stuck o rest d n) l ->
  forall i, fchain o rest (fun _ (_ : unit) r => do r' <- skip_s d n r; Ok (tt, r')) i tt (map toks l).
Proof.
  induction 1 as [|x l Hx Hl IHl]; intros He i; [inversion He|]. cbn [map].
  destruct Hx as [Hx|Hx].
  - inversion He as [? ? Hs|? ? Hs]; subst.
    + apply fc_here. intros ts r Hv. now rewrite (Hs _ _ Hv).
    + eapply fc_next; [|apply IHl; exact Hs].
      intros ts r Hv. destruct (Hx ts r Hv) as (r' & E & K). rewrite E. cbn [bind]. eauto.
  - apply fc_here. intros ts r Hv. now rewrite (Hx _ _ Hv).
Qed.
Lemma fkchain_s o rest d n (l : list (str * json)) : Forall (fun x => skips o rest d n (snd x) \/ stuck o rest d n (snd x)) l ->
  Exists (fun x => stuck o rest d n (snd x)) l ->
  fkchain o rest (fun _ (_ : unit) r => do r' <- skip_s d n r; Ok (tt, r')) tt (map (fun kv => (fst kv, toks (snd kv))) l).
Proof.
  induction 1 as [|x l Hx Hl IHl]; intros He; [inversion He|]. cbn [map].
  destruct Hx as [Hx|Hx].
  - inversion He as [? ? Hs|? ? Hs]; subst.
    + apply fk_here. intros ts r Hv. now rewrite (Hs _ _ Hv).
    + eapply fk_next; [|apply IHl; exact Hs].
      intros ts r Hv. destruct (Hx ts r Hv) as (r' & E & K). rewrite E. cbn [bind]. eauto.
  - apply fk_here. intros ts r Hv. now rewrite (Hx _ _ Hv).
Qed.

Lemma list_max_lt d l : d < list_max l -> exists x, In x l /\ d < x.
Proof.
  induction l as [|y l IH]; cbn [list_max fold_right]; intro H; [lia|].
  change (fold_right Nat.max 0 l) with (list_max l) in H.
  destruct (Nat.max_spec_le y (list_max l)) as [[_ E]|[_ E]]; rewrite E in H.
  - destruct (IH H) as (x & I1 & I2). exists x. split; [now right|exact I2].
  - exists y. split; [now left|exact H].
Qed.
Lemma list_max_in x l : In x l -> x <= list_max l.
Proof.
  induction l as [|y l IH]; intros H; [contradiction|]. cbn [list_max fold_right].
  change (fold_right Nat.max 0 l) with (list_max l). destruct H as [->|H]; [lia|]. specialize (IH H). lia.
Qed.

Lemma skip_exact o rest j : forall d n, jsize j <= n ->
  (depth j <= d -> skips o rest d n j) /\ (d < depth j -> stuck o rest d n j).
Proof.
  induction j as [ | | | | |l IH|l IH] using json_ind'; intros d n Hn;
    (destruct d as [|d]; [split; [cbn [depth]; lia|intros _ ts r _; reflexivity]|]);
    try (split; [|cbn [depth]; lia]; intros _ ts r Hv; cbn [skip_s];
         cbn [toks app] in Hv;
         destruct (peek_view _ _ _ _ _ Hv) as (r1 & E1 & K1); rewrite E1; cbn [bind tok_of];
         rewrite (view_ok _ _ _ _ K1); cbn [negb];
         destruct (next_view _ _ _ _ _ K1) as (r2 & E2 & K2 & _); rewrite E2; cbn [bind]; exists r2; auto).
  - pose proof (jsize_len_arr l) as Hl.
    assert (HA : forall x, In x l -> (depth x <= d -> skips o rest d n x) /\ (d < depth x -> stuck o rest d n x)).
    { intros x Hx. rewrite Forall_forall in IH. apply (IH x Hx). pose proof (jsize_in_arr l x Hx). lia. }
    assert (HH : forall it its', map toks l = it :: its' -> exists t it', it = t :: it' /\ t <> AArrE).
    { intros it its' E. destruct l as [|x l0]; [discriminate|]. cbn [map] in E. apply cons_inv in E as [<- _].
      destruct (toks_head x) as (t & ts' & E & Ht & _). eauto. }
    split; intros Hd ts r Hv; cbn [skip_s]; rewrite toks_arr in Hv; unfold arr_toks in Hv; cbn [app] in Hv;
      destruct (peek_view _ _ _ _ _ Hv) as (r1 & E1 & K1); rewrite E1; cbn [bind tok_of];
      rewrite (view_ok _ _ _ _ K1); cbn [negb]; change (view o (arr_toks (map toks l) ++ ts) rest r1) in K1;
      cbn [depth] in Hd.
    + edestruct (@parse_array_view unit o rest) as (r2 & E2 & K2);
        [apply chain_s|exact HH|exact K1| |rewrite E2; cbn [bind]; exists r2; auto].
      * apply Forall_forall. intros x Hx. apply (HA x Hx).
        pose proof (list_max_in (depth x) (map depth l) (in_map depth l x Hx)). lia.
      * rewrite map_length. lia.
    + rewrite (@parse_array_out unit o rest _ tt (map toks l) ts r1 n); [reflexivity| |exact HH|exact K1].
      apply fchain_s.
      * apply Forall_forall. intros x Hx. destruct (HA x Hx) as [A B].
        destruct (Nat.le_gt_cases (depth x) d); [left; auto|right; auto].
      * apply Nat.succ_lt_mono, list_max_lt in Hd as (m & Hm & Lm). apply in_map_iff in Hm as (x & <- & Hx).
        apply Exists_exists. exists x. split; [exact Hx|]. now apply (HA x Hx).
  - pose proof (jsize_len_obj l) as Hl.
    assert (HA : forall x, In x l -> (depth (snd x) <= d -> skips o rest d n (snd x)) /\ (d < depth (snd x) -> stuck o rest d n (snd x))).
    { intros x Hx. rewrite Forall_forall in IH. apply (IH x Hx). pose proof (jsize_in_obj l x Hx). lia. }
    split; intros Hd ts r Hv; cbn [skip_s]; rewrite toks_obj in Hv; unfold obj_toks in Hv; cbn [app] in Hv;
      destruct (peek_view _ _ _ _ _ Hv) as (r1 & E1 & K1); rewrite E1; cbn [bind tok_of];
      rewrite (view_ok _ _ _ _ K1); cbn [negb];
      change (view o (obj_toks (map (fun kv => (fst kv, toks (snd kv))) l) ++ ts) rest r1) in K1;
      cbn [depth] in Hd.
    + edestruct (@parse_object_view unit o rest) as (r2 & E2 & K2);
        [apply kchain_s|exact K1| |rewrite E2; cbn [bind]; exists r2; auto].
      * apply Forall_forall. intros x Hx. apply (HA x Hx).
        pose proof (list_max_in _ _ (in_map (fun kv => depth (snd kv)) l x Hx)). cbn beta in H. lia.
      * rewrite map_length. lia.
    + rewrite (@parse_object_out unit o rest _ tt (map (fun kv => (fst kv, toks (snd kv))) l) ts r1 n); [reflexivity| |exact K1].
      apply fkchain_s.
      * apply Forall_forall. intros x Hx. destruct (HA x Hx) as [A B].
        destruct (Nat.le_gt_cases (depth (snd x)) d); [left; auto|right; auto].
      * apply Nat.succ_lt_mono, list_max_lt in Hd as (m & Hm & Lm). apply in_map_iff in Hm as (x & <- & Hx).
        apply Exists_exists. exists x. split; [exact Hx|]. now apply (HA x Hx).
Qed.

(* ---- sizes ---- *)
Lemma sep_len (l : list (list atok)) : length l + fold_right (fun x n => length x + n) 0 l <= S (length (sep_by l)).
Proof.
  induction l as [|x l IH]; [cbn; lia|]. destruct l as [|y l].
  - cbn [sep_by fold_right length]. lia.
  - cbn [sep_by length fold_right] in *. rewrite app_length. cbn [length]. lia.
Qed.
Lemma jsize_toks j : jsize j <= length (toks j).
Proof.
  induction j as [ | | | | |l IH|l IH] using json_ind'; try (cbn; lia).
  - rewrite toks_arr. unfold arr_toks. cbn [length]. rewrite app_length. cbn [length]. cbn [jsize].
    pose proof (sep_len (map toks l)) as SL. rewrite map_length in SL.
    assert (Q : fold_right (fun x n => jsize x + n) 0 l <= fold_right (fun x n => length x + n) 0 (map toks l)).
    { clear SL. induction IH; cbn [fold_right map]; lia. }
    lia.
  - rewrite toks_obj. unfold obj_toks. cbn [length]. rewrite app_length. cbn [length]. cbn [jsize].
    set (f := fun kv : str * json => (fst kv, toks (snd kv))).
    pose proof (sep_len (map member_toks (map f l))) as SL. rewrite !map_length in SL.
    assert (Q : fold_right (fun x n => jsize (snd x) + n) 0 l <= fold_right (fun x n => length x + n) 0 (map member_toks (map f l))).
    { clear SL. induction IH; cbn [fold_right map]; unfold member_toks, f in *; cbn [fst snd length] in *; lia. }
    lia.
Qed.
Lemma tok_text_nonempty d t x : tok_text d t x -> 1 <= length x.
Proof.
  intros H. inversion H as [ | | | | | |s y|z y I|y I| | | ]; subst; cbn; try lia.
  - inversion I as [q Q1|q Q1]; subst; [destruct x; [contradiction|]|]; cbn; lia.
  - inversion I as [sg ds fr ex A B C D E F]; subst. rewrite !app_length. destruct ds; [contradiction|]. cbn. lia.
Qed.
Lemma lexes_len d s ts rest : lexes d s ts rest -> length ts <= length s.
Proof.
  induction 1 as [|w t x s ts rest B T N L IH]; [cbn; lia|].
  rewrite !app_length. cbn [length]. apply tok_text_nonempty in T. unfold byte in *. lia.
Qed.
