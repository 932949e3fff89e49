(* ProofJson3.v - readers seen as token streams; the generic parser and skip on the
   tokens of a JSON value. *)
From Coq Require String. Import String.StringSyntax.
From Verif Require Import Base Dec ModelJson SpecJson ProofJson1 ProofJson2.
Local Open Scope outcome_scope.
Local Open Scope N_scope.

(* No look-ahead: the unread text is the tokens ts, then rest. *)
Definition V (o : ropts) (ts : list atok) (rest : str) (r : reader) : Prop :=
  exists s b, R o s b TNone r /\ lexes (dia o) s ts rest.

(* The same, possibly with the first token already read ahead. *)
Definition view (o : ropts) (ts : list atok) (rest : str) (r : reader) : Prop :=
  V o ts rest r \/
  exists t ts' s b, ts = t :: ts' /\ R o s b (tok_of t) r /\ payload t b /\ lexes (dia o) s ts' rest.

Lemma V_view o ts rest r : V o ts rest r -> view o ts rest r.
Proof. left; assumption. Qed.

Lemma view_ok o ts rest r : view o ts rest r -> rok r = true.
Proof.
  intros [(s & b & H & _)|(t & ts' & s & b & _ & H & _)]; eapply R_ok; eauto.
Qed.
Lemma V_ok o ts rest r : V o ts rest r -> rok r = true.
Proof. intro H. eapply view_ok, V_view, H. Qed.

Lemma V_end o rest r : V o [] rest r -> rin r = rest /\ rerr r = None /\ rok r = true /\ rtok r = TNone.
Proof.
  intros (s & b & (p & l & ->) & H). inversion H; subst. auto.
Qed.

Lemma V_init o s ts rest : lexes (dia o) s ts rest -> V o ts rest (reader_init o s).
Proof. intro H. exists s, []. split; auto. exists 1, 1. reflexivity. Qed.

Lemma tok_not_none t : same_type (tok_of t) TNone = false.
Proof. destruct t; reflexivity. Qed.
Lemma same_type_refl t : same_type t t = true.
Proof. destruct t; reflexivity. Qed.

Lemma lexes_cons_inv d s t ts rest : lexes d s (t :: ts) rest ->
  exists w x s', s = w ++ x ++ s' /\ blank d w /\ tok_text d t x /\ (is_num t -> num_stop s') /\ lexes d s' ts rest.
Proof. intro H. inversion H; subst. eauto 10. Qed.

Lemma lex_V o t ts rest r : V o (t :: ts) rest r ->
  exists r' b, lex_token r = Ok (tok_of t, r') /\ R o (rin r') b TNone r' /\ payload t b /\ lexes (dia o) (rin r') ts rest.
Proof.
  intros (s & b & Hr & Hl). apply lexes_cons_inv in Hl as (w & x & s' & -> & Hw & Hx & Hn & Hl).
  destruct (lex_ok o w t x s' b r Hw Hx Hn Hr) as (r' & b' & E & K & P).
  exists r', b'. rewrite (R_in _ _ _ _ _ K). auto.
Qed.

Lemma next_view o t ts rest r : view o (t :: ts) rest r ->
  exists r', next_tok r = Ok (tok_of t, r') /\ V o ts rest r' /\ payload t (rbuf r').
Proof.
  intros [H|(t0 & ts' & s & b & E & Hr & P & Hl)].
  - pose proof H as (s & b & Hr & _). destruct (lex_V o t ts rest r H) as (r' & b' & E & K & P & L).
    exists r'. unfold next_tok. rewrite (R_tok _ _ _ _ _ Hr). cbn [same_type]. rewrite (R_buf _ _ _ _ _ K).
    split; auto. split; auto. exists (rin r'), b'. auto.
  - apply cons_inv in E as [<- <-]. unfold next_tok. rewrite (R_tok _ _ _ _ _ Hr), tok_not_none.
    eexists; split; [reflexivity|]. apply (R_settok _ _ _ _ TNone) in Hr.
    split; [exists s, b; auto|]. rewrite (R_buf _ _ _ _ _ Hr). exact P.
Qed.

Lemma peek_view o t ts rest r : view o (t :: ts) rest r ->
  exists r', peek_tok r = Ok (tok_of t, r') /\ view o (t :: ts) rest r'.
Proof.
  intros [H|(t0 & ts' & s & b & E & Hr & P & Hl)].
  - pose proof H as (s & b & Hr & _). destruct (lex_V o t ts rest r H) as (r' & b' & E & K & P & L).
    unfold peek_tok. rewrite (R_tok _ _ _ _ _ Hr). cbn [same_type]. rewrite E. cbn [bind].
    eexists; split; [reflexivity|]. right. exists t, ts, (rin r'), b'. split; [reflexivity|].
    split; [|auto]. eapply R_settok; eauto.
  - apply cons_inv in E as [<- <-]. unfold peek_tok. rewrite (R_tok _ _ _ _ _ Hr), tok_not_none.
    exists r. split; auto. right. exists t, ts, s, b. auto.
Qed.

Lemma expect_view o t ts rest r exp : view o (t :: ts) rest r -> same_type (tok_of t) exp = true ->
  exists r', expect_tok exp r = Ok (tok_of t, r') /\ V o ts rest r' /\ payload t (rbuf r').
Proof.
  intros H E. destruct (next_view o t ts rest r H) as (r' & E' & K). exists r'.
  unfold expect_tok. rewrite E'. cbn [bind]. rewrite E. auto.
Qed.

(* reading ':' leaves the buffer alone, so the key is still there *)
Lemma next_key_buf o ts rest r : V o (AKey :: ts) rest r ->
  exists r', expect_tok TKey r = Ok (TKey, r') /\ V o ts rest r' /\ rbuf r' = rbuf r.
Proof.
  intros (s & b & Hr & Hl). apply lexes_cons_inv in Hl as (w & x & s' & -> & Hw & Hx & Hn & Hl).
  inversion Hx; subst. cbn [lit app Ascii.N_of_ascii Ascii.N_of_digits] in *.
  unfold expect_tok, next_tok. rewrite (R_tok _ _ _ _ _ Hr). cbn [same_type].
  unfold lex_token. rewrite (R_ok _ _ _ _ _ Hr). cbn [negb].
  change (N.add 0 _) with 58 in Hr || idtac.
  destruct (next_char_ok o w Hw 58 s' b TNone r (rfuel r)) as (r1 & E1 & K1); auto; try discriminate.
  { unfold rfuel. rewrite (R_in _ _ _ _ _ Hr), app_length. nlia. }
  rewrite E1. cbn [bind]. rewrite (R_ok _ _ _ _ _ K1). cbn [negb].
  exists r1. split; [reflexivity|]. split; [exists s', b; auto|].
  rewrite (R_buf _ _ _ _ _ K1), (R_buf _ _ _ _ _ Hr). reflexivity.
Qed.

(* ---- parseArray / parseObject on the tokens of a sequence of items ---- *)

(* [chain]: starting in state s at index i, the callback consumes the items one by
   one and ends in state s'. *)
Inductive chain {S : Type} (o : ropts) (rest : str) (fn : nat -> S -> reader -> outcome (S * reader))
  : nat -> S -> list (list atok) -> S -> Prop :=
| ch_nil i s : chain o rest fn i s [] s
| ch_cons i s it its s1 s' :
    (forall ts r, view o (it ++ ts) rest r -> exists r', fn i s r = Ok (s1, r') /\ V o ts rest r') ->
    chain o rest fn (Datatypes.S i) s1 its s' -> chain o rest fn i s (it :: its) s'.

Inductive kchain {S : Type} (o : ropts) (rest : str) (fn : str -> S -> reader -> outcome (S * reader))
  : S -> list (str * list atok) -> S -> Prop :=
| kc_nil s : kchain o rest fn s [] s
| kc_cons s k it its s1 s' :
    (forall ts r, view o (it ++ ts) rest r -> exists r', fn k s r = Ok (s1, r') /\ V o ts rest r') ->
    kchain o rest fn s1 its s' -> kchain o rest fn s ((k, it) :: its) s'.

Definition arr_toks (its : list (list atok)) : list atok := AArrS :: sep_by its ++ [AArrE].
Definition member_toks (kv : str * list atok) : list atok := AStr (fst kv) :: AKey :: snd kv.
Definition obj_toks (its : list (str * list atok)) : list atok :=
  AObjS :: sep_by (map member_toks its) ++ [AObjE].

Lemma array_loop_view {S : Type} o rest (fn : nat -> S -> reader -> outcome (S * reader)) i s its s' :
  chain o rest fn i s its s' -> its <> [] -> forall ts r fuel,
  view o (sep_by its ++ AArrE :: ts) rest r -> (length its <= fuel)%nat ->
  exists r', array_loop fuel fn i s r = Ok (s', r') /\ V o ts rest r'.
Proof.
  induction 1 as [i s|i s it its s1 s' Hstep Hc IH]; intros Hne ts r fuel Hv Hf; [contradiction|].
  destruct fuel as [|fuel]; [cbn in Hf; lia|]. cbn [array_loop].
  rewrite (view_ok _ _ _ _ Hv).
  destruct its as [|it2 its].
  - cbn [sep_by] in Hv. destruct (Hstep _ _ Hv) as (r1 & E1 & K1). rewrite E1. cbn [bind].
    destruct (next_view _ _ _ _ _ (V_view _ _ _ _ K1)) as (r2 & E2 & K2 & _). rewrite E2. cbn [bind tok_of same_type].
    inversion Hc; subst. exists r2. auto.
  - assert (Hv' : view o (it ++ ASep :: sep_by (it2 :: its) ++ AArrE :: ts) rest r).
    { cbn [sep_by] in *. rewrite <- app_assoc in Hv. exact Hv. }
    destruct (Hstep _ _ Hv') as (r1 & E1 & K1). rewrite E1. cbn [bind].
    destruct (next_view _ _ _ _ _ (V_view _ _ _ _ K1)) as (r2 & E2 & K2 & _). rewrite E2. cbn [bind tok_of same_type].
    unfold assert_tok. cbn [same_type]. apply IH; [discriminate|now apply V_view|]. cbn in *. lia.
Qed.

Lemma parse_array_view {S : Type} o rest (fn : nat -> S -> reader -> outcome (S * reader)) s its s' ts r fuel :
  chain o rest fn 0 s its s' ->
  (forall it its', its = it :: its' -> exists t it', it = t :: it' /\ t <> AArrE) ->
  view o (arr_toks its ++ ts) rest r -> (length its <= fuel)%nat ->
  exists r', parse_array fuel fn s r = Ok (s', r') /\ V o ts rest r'.
Proof.
  intros Hc Hh Hv Hf. unfold arr_toks in Hv. cbn [app] in Hv. unfold parse_array.
  destruct (next_view _ _ _ _ _ Hv) as (r1 & E1 & K1 & _). rewrite E1. cbn [bind tok_of same_type].
  unfold assert_tok. cbn [same_type]. rewrite <- app_assoc in K1. cbn [app] in K1.
  destruct its as [|it its].
  - cbn [sep_by app] in K1.
    destruct (peek_view _ _ _ _ _ (V_view _ _ _ _ K1)) as (r2 & E2 & K2). rewrite E2. cbn [bind tok_of same_type].
    destruct (expect_view _ _ _ _ _ TArrE K2 eq_refl) as (r3 & E3 & K3 & _). rewrite E3. cbn [bind].
    inversion Hc; subst. exists r3. auto.
  - destruct (Hh it its eq_refl) as (t & it' & -> & Ht).
    assert (Hs : exists u, sep_by ((t :: it') :: its) = t :: u)
      by (destruct its; cbn [sep_by app]; eexists; reflexivity).
    destruct Hs as (u & Hs). pose proof K1 as K1'. rewrite Hs in K1'. cbn [app] in K1'.
    destruct (peek_view _ _ _ _ _ (V_view _ _ _ _ K1')) as (r2 & E2 & K2). rewrite E2. cbn [bind].
    replace (same_type (tok_of t) TArrE) with false by (destruct t; cbn; congruence).
    assert (K2' : view o (sep_by ((t :: it') :: its) ++ AArrE :: ts) rest r2) by (rewrite Hs; exact K2).
    exact (array_loop_view o rest fn 0 s _ s' Hc ltac:(discriminate) ts r2 fuel K2' Hf).
Qed.

Lemma object_loop_view {S : Type} o rest (fn : str -> S -> reader -> outcome (S * reader)) s its s' :
  kchain o rest fn s its s' -> its <> [] -> forall ts r fuel,
  view o (sep_by (map member_toks its) ++ AObjE :: ts) rest r -> (length its <= fuel)%nat ->
  exists r', object_loop fuel fn s r = Ok (s', r') /\ V o ts rest r'.
Proof.
  induction 1 as [s|s k it its s1 s' Hstep Hc IH]; intros Hne ts r fuel Hv Hf; [contradiction|].
  destruct fuel as [|fuel]; [cbn in Hf; lia|]. cbn [object_loop].
  rewrite (view_ok _ _ _ _ Hv).
  assert (Hgo : forall tl, view o (AStr k :: AKey :: it ++ tl) rest r ->
     exists r3, V o tl rest r3 /\ forall K,
     (do (t, r1) <- expect_tok TStr r;
      do _ <- as_string t r1;
      do (_, r2) <- expect_tok TKey r1;
      do (s1, r3) <- fn (rbuf r2) s r2; K s1 r3) = (K s1 r3 : outcome (S * reader))).
  { intros tl Hv'. destruct (expect_view _ _ _ _ _ TStr Hv' eq_refl) as (r1 & E1 & K1 & P1).
    cbn [payload] in P1. destruct (next_key_buf _ _ _ _ K1) as (r2 & E2 & K2 & B2).
    destruct (Hstep tl r2 (V_view _ _ _ _ K2)) as (r3 & E3 & K3).
    exists r3. split; auto. intro K. rewrite E1. cbn [bind tok_of as_string]. rewrite E2. cbn [bind].
    rewrite B2, P1, E3. reflexivity. }
  destruct its as [|kit2 its].
  - cbn [sep_by map member_toks fst snd app] in Hv. destruct (Hgo _ Hv) as (r3 & K3 & E3). rewrite E3.
    destruct (next_view _ _ _ _ _ (V_view _ _ _ _ K3)) as (r4 & E4 & K4 & _). rewrite E4. cbn [bind tok_of same_type].
    inversion Hc; subst. exists r4. auto.
  - assert (Hv' : view o (AStr k :: AKey :: it ++ ASep :: sep_by (map member_toks (kit2 :: its)) ++ AObjE :: ts) rest r).
    { change (map member_toks ((k, it) :: kit2 :: its)) with ((AStr k :: AKey :: it) :: map member_toks (kit2 :: its)) in Hv.
      change (map member_toks (kit2 :: its)) with (member_toks kit2 :: map member_toks its) in *.
      cbn [sep_by] in *. rewrite <- app_assoc in Hv. exact Hv. }
    destruct (Hgo _ Hv') as (r3 & K3 & E3). rewrite E3.
    destruct (next_view _ _ _ _ _ (V_view _ _ _ _ K3)) as (r4 & E4 & K4 & _). rewrite E4. cbn [bind tok_of same_type].
    unfold assert_tok. cbn [same_type]. apply IH; [discriminate|now apply V_view|]. cbn in *. lia.
Qed.

Lemma parse_object_view {S : Type} o rest (fn : str -> S -> reader -> outcome (S * reader)) s its s' ts r fuel :
  kchain o rest fn s its s' ->
  view o (obj_toks its ++ ts) rest r -> (length its <= fuel)%nat ->
  exists r', parse_object fuel fn s r = Ok (s', r') /\ V o ts rest r'.
Proof.
  intros Hc Hv Hf. unfold obj_toks in Hv. cbn [app] in Hv. unfold parse_object.
  destruct (next_view _ _ _ _ _ Hv) as (r1 & E1 & K1 & _). rewrite E1. cbn [bind tok_of same_type].
  unfold assert_tok. cbn [same_type]. rewrite <- app_assoc in K1. cbn [app] in K1.
  destruct its as [|[k it] its].
  - cbn [map sep_by app] in K1.
    destruct (peek_view _ _ _ _ _ (V_view _ _ _ _ K1)) as (r2 & E2 & K2). rewrite E2. cbn [bind tok_of same_type].
    destruct (expect_view _ _ _ _ _ TObjE K2 eq_refl) as (r3 & E3 & K3 & _). rewrite E3. cbn [bind].
    inversion Hc; subst. exists r3. auto.
  - assert (Hs : exists u, sep_by (map member_toks ((k, it) :: its)) = AStr k :: u)
      by (destruct its; cbn [sep_by map member_toks fst snd app]; eexists; reflexivity).
    destruct Hs as (u & Hs). pose proof K1 as K1'. rewrite Hs in K1'. cbn [app] in K1'.
    destruct (peek_view _ _ _ _ _ (V_view _ _ _ _ K1')) as (r2 & E2 & K2). rewrite E2. cbn [bind tok_of same_type].
    assert (K2' : view o (sep_by (map member_toks ((k, it) :: its)) ++ AObjE :: ts) rest r2) by (rewrite Hs; exact K2).
    exact (object_loop_view o rest fn s _ s' Hc ltac:(discriminate) ts r2 fuel K2' Hf).
Qed.

(* null is accepted in place of an array or object and changes nothing *)
Lemma parse_array_null {S : Type} o rest (fn : nat -> S -> reader -> outcome (S * reader)) s ts r fuel :
  view o (ANull :: ts) rest r -> exists r', parse_array fuel fn s r = Ok (s, r') /\ V o ts rest r'.
Proof.
  intro Hv. unfold parse_array. destruct (next_view _ _ _ _ _ Hv) as (r1 & E1 & K1 & _).
  rewrite E1. exists r1. auto.
Qed.
Lemma parse_object_null {S : Type} o rest (fn : str -> S -> reader -> outcome (S * reader)) s ts r fuel :
  view o (ANull :: ts) rest r -> exists r', parse_object fuel fn s r = Ok (s, r') /\ V o ts rest r'.
Proof.
  intro Hv. unfold parse_object. destruct (next_view _ _ _ _ _ Hv) as (r1 & E1 & K1 & _).
  rewrite E1. exists r1. auto.
Qed.

(* ---- JSON values ---- *)
Fixpoint jsize (j : json) : nat :=
  match j with
  | JArr l => S (length l + fold_right (fun x n => jsize x + n)%nat 0%nat l)
  | JObj l => S (length l + fold_right (fun kv n => jsize (snd kv) + n)%nat 0%nat l)
  | _ => 1%nat
  end.

Fixpoint json_ind' (P : json -> Prop)
  (Hnull : P JNull) (Hbool : forall b, P (JBool b)) (Hint : forall z, P (JInt z))
  (Hfloat : forall x, P (JFloat x)) (Hstr : forall s, P (JStr s))
  (Harr : forall l, Forall P l -> P (JArr l))
  (Hobj : forall l, Forall (fun kv => P (snd kv)) l -> P (JObj l)) (j : json) : P j :=
  match j with
  | JNull => Hnull | JBool b => Hbool b | JInt z => Hint z | JFloat x => Hfloat x | JStr s => Hstr s
  | JArr l => Harr l ((fix go l : Forall P l := match l with
      | [] => Forall_nil _
      | x :: l' => Forall_cons _ (json_ind' P Hnull Hbool Hint Hfloat Hstr Harr Hobj x) (go l') end) l)
  | JObj l => Hobj l ((fix go l : Forall (fun kv => P (snd kv)) l := match l with
      | [] => Forall_nil _
      | x :: l' => Forall_cons _ (json_ind' P Hnull Hbool Hint Hfloat Hstr Harr Hobj (snd x)) (go l') end) l)
  end.

Lemma toks_head j : exists t ts, toks j = t :: ts /\ t <> AArrE /\ t <> AObjE /\ t <> ASep /\ t <> AKey.
Proof. destruct j; cbn [toks]; do 2 eexists; (split; [reflexivity|]); repeat split; discriminate. Qed.

Lemma toks_arr l : toks (JArr l) = arr_toks (map toks l).
Proof. reflexivity. Qed.
Lemma toks_obj l : toks (JObj l) = obj_toks (map (fun kv => (fst kv, toks (snd kv))) l).
Proof. cbn [toks]. unfold obj_toks. rewrite map_map. reflexivity. Qed.

Lemma jsize_in_arr l x : In x l -> (jsize x < jsize (JArr l))%nat.
Proof.
  cbn [jsize]. induction l as [|y l IH]; intro H; [contradiction|]. cbn [fold_right length].
  destruct H as [->|H]; [lia|]. specialize (IH H). lia.
Qed.
Lemma jsize_in_obj l kv : In kv l -> (jsize (snd kv) < jsize (JObj l))%nat.
Proof.
  cbn [jsize]. induction l as [|y l IH]; intro H; [contradiction|]. cbn [fold_right length].
  destruct H as [->|H]; [lia|]. specialize (IH H). lia.
Qed.
Lemma jsize_len_arr l : (length l < jsize (JArr l))%nat.
Proof. cbn [jsize]. lia. Qed.
Lemma jsize_len_obj l : (length l < jsize (JObj l))%nat.
Proof. cbn [jsize]. lia. Qed.

Lemma chain_skip o rest fuel l :
  (forall x, In x l -> forall ts r, view o (toks x ++ ts) rest r ->
     exists r', skip fuel r = Ok r' /\ V o ts rest r') ->
  forall i, chain o rest (fun _ (_ : unit) r => do r' <- skip fuel r; Ok (tt, r')) i tt (map toks l) tt.
Proof.
  induction l as [|x l IHl]; intros Hall i; cbn [map]; econstructor.
  - intros ts r Hv. destruct (Hall x (or_introl eq_refl) ts r Hv) as (r' & E & K). rewrite E. cbn [bind]. eauto.
  - apply IHl. intros y Hy. apply Hall. now right.
Qed.
Lemma kchain_skip o rest fuel (l : list (str * json)) :
  (forall x, In x l -> forall ts r, view o (toks (snd x) ++ ts) rest r ->
     exists r', skip fuel r = Ok r' /\ V o ts rest r') ->
  kchain o rest (fun _ (_ : unit) r => do r' <- skip fuel r; Ok (tt, r')) tt
         (map (fun kv => (fst kv, toks (snd kv))) l) tt.
Proof.
  induction l as [|x l IHl]; intros Hall; cbn [map]; econstructor.
  - intros ts r Hv. destruct (Hall x (or_introl eq_refl) ts r Hv) as (r' & E & K). rewrite E. cbn [bind]. eauto.
  - apply IHl. intros y Hy. apply Hall. now right.
Qed.

Lemma skip_view o rest j : forall ts r fuel, view o (toks j ++ ts) rest r -> (jsize j < fuel)%nat ->
  exists r', skip fuel r = Ok r' /\ V o ts rest r'.
Proof.
  induction j as [ | | | | |l IH|l IH] using json_ind'; intros ts r fuel Hv Hf;
    (destruct fuel as [|fuel]; [lia|]); cbn [skip];
    try (cbn [toks app] in Hv;
         destruct (peek_view _ _ _ _ _ Hv) as (r1 & E1 & K1); rewrite E1; cbn [bind tok_of];
         rewrite (view_ok _ _ _ _ K1); cbn [negb];
         destruct (next_view _ _ _ _ _ K1) as (r2 & E2 & K2 & _); rewrite E2; cbn [bind]; exists r2; auto).
  - rewrite toks_arr in Hv. unfold arr_toks in Hv. cbn [app] in Hv.
    destruct (peek_view _ _ _ _ _ Hv) as (r1 & E1 & K1). rewrite E1; cbn [bind tok_of].
    rewrite (view_ok _ _ _ _ K1). cbn [negb].
    change (view o (arr_toks (map toks l) ++ ts) rest r1) in K1.
    pose proof (jsize_len_arr l) as Hl.
    edestruct (@parse_array_view unit o rest) as (r2 & E2 & K2); [| |exact K1| |rewrite E2; cbn [bind]; exists r2; auto].
    + assert (Hall : forall x, In x l -> forall ts r, view o (toks x ++ ts) rest r ->
        exists r', skip fuel r = Ok r' /\ V o ts rest r').
      { intros x Hx ts' r' Hv'. rewrite Forall_forall in IH. apply (IH x Hx); auto.
        pose proof (jsize_in_arr l x Hx). lia. }
      apply chain_skip. exact Hall.
    + intros it its' E. destruct l as [|x l]; [discriminate|]. cbn [map] in E. apply cons_inv in E as [<- _].
      destruct (toks_head x) as (t & ts' & E & Ht & _). eauto.
    + rewrite map_length. lia.
  - rewrite toks_obj in Hv. unfold obj_toks in Hv. cbn [app] in Hv.
    destruct (peek_view _ _ _ _ _ Hv) as (r1 & E1 & K1). rewrite E1; cbn [bind tok_of].
    rewrite (view_ok _ _ _ _ K1). cbn [negb].
    change (view o (obj_toks (map (fun kv => (fst kv, toks (snd kv))) l) ++ ts) rest r1) in K1.
    pose proof (jsize_len_obj l) as Hl.
    edestruct (@parse_object_view unit o rest) as (r2 & E2 & K2); [|exact K1| |rewrite E2; cbn [bind]; exists r2; auto].
    + assert (Hall : forall x, In x l -> forall ts r, view o (toks (snd x) ++ ts) rest r ->
        exists r', skip fuel r = Ok r' /\ V o ts rest r').
      { intros x Hx ts' r' Hv'. rewrite Forall_forall in IH. apply (IH x Hx); auto.
        pose proof (jsize_in_obj l x Hx). lia. }
      apply kchain_skip. exact Hall.
    + rewrite map_length. lia.
Qed.
