(* ProofJsonA9.v - the other direction of C62: every document is taken, and so is every
   text that ends in one of the ways of [unfinished]. *)
From Coq Require String. Import String.StringSyntax.
From Verif Require Import Base Dec ModelJson SpecJson SpecJsonT SpecJsonA ProofJson1 ProofJson2 ProofJson3 ProofJson4 ProofJson5 ProofJson7 ProofJsonA1 ProofJsonA2 ProofJsonA3 ProofJsonA7.
Local Open Scope outcome_scope.
Local Open Scope N_scope.

Lemma prefix_cmp {A} (x x' s s' : list A) : x ++ s = x' ++ s' -> (exists y, x' = x ++ y /\ s = y ++ s') \/ (exists y, x = x' ++ y /\ s' = y ++ s).
Proof.
  revert x'. induction x as [|c x IH]; intros x' E; cbn [app] in *.
  - left. exists x'. auto.
  - destruct x' as [|c' x']; cbn [app] in *.
    + right. exists (c :: x). cbn. auto.
    + injection E as <- E. destruct (IH x' E) as [(y & -> & ->)|(y & -> & ->)]; [left|right]; exists y; auto.
Qed.
Lemma longest_unique x s x' s' : sloppy_number x -> sloppy_number x' -> longest x s -> longest x' s' -> x ++ s = x' ++ s' -> x = x' /\ s = s'.
Proof.
  intros S1 S2 L1 L2 E. destruct (prefix_cmp _ _ _ _ E) as [(y & -> & ->)|(y & -> & ->)].
  - specialize (L1 y s' eq_refl S2). subst. now rewrite app_nil_r.
  - specialize (L2 y s eq_refl S1). subst. now rewrite app_nil_r.
Qed.

(* a number *)
Lemma lex_number o w a x s b r : blank (dia o) w -> tok_accept (dia o) a x -> is_num a -> longest x s -> R o (w ++ x ++ s) b TNone r ->
  exists t r', lex_token r = Ok (t, r') /\ kind a t /\ Qe o s x TNone r' /\ (s = [] -> (ended r' <-> open_number x)).
Proof.
  intros Hw Ha Na Lg Hr. pose proof (accept_sloppy _ _ _ Ha Na) as Sx. pose proof Sx as (c & ds & fr & ex & Hc & Hd & Hf & He & Ex).
  assert (E0 : x = c :: ds ++ fr ++ ex) by exact Ex.
  set (xs := ds ++ fr ++ ex) in *. rewrite E0 in Hr. cbn [app] in Hr.
  destruct (not_space_num c Hc) as (S1 & S2 & q1 & q2 & q3 & q4 & q5 & q6 & q7 & q8 & q9 & q10 & q11).
  unfold lex_token. rewrite (R_ok _ _ _ _ _ Hr). cbn [negb].
  destruct (next_char_ok o w Hw c (xs ++ s) b TNone r (rfuel r)) as (r1 & E1 & K1); auto; try contradiction.
  { unfold rfuel. rewrite (R_in _ _ _ _ _ Hr), app_length. nlia. }
  rewrite E1. cbn [bind]. rewrite (R_ok _ _ _ _ _ K1). cbn [negb].
  rewrite q1, q2, q3, q4, q5, q6, q7, q8, q9, q10, q11.
  destruct (read_number_fine c r1) as (t & r' & E & _). rewrite E. exists t, r'. split; [reflexivity|].
  destruct (read_number_inv _ _ _ _ _ _ _ _ (R_Q _ _ _ _ _ K1) Hc E) as (ds' & fr' & ex' & s' & Es & Hd' & Hf' & He' & H2 & K & Lg' & Op & Op').
  assert (Sx' : sloppy_number (c :: ds' ++ fr' ++ ex')) by (exists c, ds', fr', ex'; auto).
  destruct (longest_unique x s (c :: ds' ++ fr' ++ ex') s' Sx Sx' Lg Lg') as (U1 & U2).
  { rewrite E0. cbn [app]. f_equal. rewrite Es, <- !app_assoc. reflexivity. }
  subst s'. rewrite U1. split; [|split; [exact H2|]].
  - rewrite U1 in Ha. destruct (accept_num_inv _ _ _ Ha Na) as [(z & -> & Hz)| ->].
    + destruct K as [(-> & _)|(_ & N)]; [now left|]. exfalso. eapply not_int_frac; [exact Hf'|exact He'|exact N|exact Hz].
    + destruct K as [(-> & -> & ->)|(-> & _)]; [|now left]. rewrite !app_nil_r in *.
      destruct (list_eq_dec N.eq_dec (c :: ds') [45]) as [Eq|Ne]; [right; split; [now rewrite Eq|reflexivity]|].
      destruct (number_int c ds' Hc Hd' Ne) as (z & Hz). exfalso. eapply int_not_float; eauto.
  - intros Es'. split; [intro En; exists c, ds', fr', ex'; repeat split; auto|].
    intro Ox. apply Op'; [exact Es'|]. destruct Ox as (c2 & d2 & f2 & e2 & Hc2 & Hd2 & Hf2 & He2 & Ex2).
    injection Ex2 as _ Ex2. assert (Se2 : sloppy_exp e2) by (destruct He2 as [->|[->| ->]]; [now left|right; exists 101, [], []; cbn; repeat split; auto; constructor|right; exists 69, [], []; cbn; repeat split; auto; constructor]).
    destruct (split_digits ds' d2 (fr' ++ ex') (f2 ++ e2) Hd' Hd2 (frac_exp_head _ _ Hf' He') (frac_exp_head _ _ Hf2 Se2) Ex2) as (_ & Ex3).
    assert (ex' = e2) as ->; [|exact He2]. clear - Ex3 Hf' Hf2 He' Se2.
    assert (N1 : nhead digit_char ex') by (intros y ys -> D; destruct (sloppy_exp_head _ _ _ He' eq_refl) as [->| ->]; unfold digit_char in D; lia).
    assert (N2 : nhead digit_char e2) by (intros y ys -> D; destruct (sloppy_exp_head _ _ _ Se2 eq_refl) as [->| ->]; unfold digit_char in D; lia).
    destruct Hf' as [->|(d1 & -> & D1)], Hf2 as [->|(d2 & -> & D2)]; cbn [app] in Ex3.
    + exact Ex3.
    + destruct (sloppy_exp_head _ _ _ He' Ex3); discriminate.
    + destruct (sloppy_exp_head _ _ _ Se2 (eq_sym Ex3)); discriminate.
    + injection Ex3 as Ex3. now destruct (split_digits d1 d2 ex' e2 D1 D2 N1 N2 Ex3).
Qed.

Lemma lex_accept o w a x s b r : blank (dia o) w -> tok_accept (dia o) a x -> (is_num a -> longest x s /\ s <> []) ->
  Q o (w ++ x ++ s) b TNone r ->
  exists t r' b', lex_token r = Ok (t, r') /\ kind a t /\ Q o s b' TNone r'.
Proof.
  intros Hw Ha Hn Hq.
  assert (Hr : R o (w ++ x ++ s) b TNone r).
  { destruct (accept_first _ _ _ Ha) as (c & x' & -> & _). destruct w as [|c0 w]; [|now apply Q_R in Hq]. now apply Q_R in Hq. }
  assert (D : is_num a \/ ~ is_num a) by (destruct a; cbn; auto). destruct D as [Na|Na].
  - destruct (Hn Na) as (Lg & Ns). destruct (lex_number o w a x s b r Hw Ha Na Lg Hr) as (t & r' & E & K & H & _).
    destruct H as [H|(_ & X & _)]; [|contradiction]. exists t, r', x. auto.
  - pose proof (accept_text _ _ _ Ha Na) as Ht.
    destruct (lex_ok o w a x s b r Hw Ht ltac:(intro; contradiction) Hr) as (r' & b' & E & K & _).
    exists (tok_of a), r', b'. split; [exact E|]. split; [now left|now apply R_Q].
Qed.

(* no number is the very end of the text *)
Definition nend (ts : list atok) (rest : str) : Prop := rest = [] -> ts = [] \/ exists ts' t, ts = ts' ++ [t] /\ ~ is_num t.
Lemma nend_tl t ts rest : nend (t :: ts) rest -> nend ts rest.
Proof.
  intros H E. destruct (H E) as [X|(ts' & u & X & Hu)]; [discriminate|]. destruct ts' as [|t' ts']; [injection X as -> ->; now left|].
  injection X as _ ->. right. eauto.
Qed.
Lemma accepts_ne d s t ts rest : accepts d s (t :: ts) rest -> s <> [].
Proof.
  intro H. inversion H as [|w a x s' ? ? Bw Ha _ _]; subst. destruct (accept_first _ _ _ Ha) as (c & x' & -> & _).
  destruct w; discriminate.
Qed.

Definition W (o : ropts) (ts : list atok) (rest : str) (r : reader) : Prop :=
  exists s b, Q o s b TNone r /\ accepts (dia o) s ts rest /\ nend ts rest.
Definition wview (o : ropts) (ts : list atok) (rest : str) (r : reader) : Prop :=
  W o ts rest r \/
  exists a ts' s b t, ts = a :: ts' /\ kind a t /\ Q o s b t r /\ accepts (dia o) s ts' rest /\ nend ts' rest.
Lemma W_view o ts rest r : W o ts rest r -> wview o ts rest r. Proof. now left. Qed.
Lemma wview_ok o ts rest r : wview o ts rest r -> rok r = true.
Proof. intros [(s & b & H & _)|(a & ts' & s & b & t & _ & _ & H & _)]; eapply Q_ok; eauto. Qed.

Lemma lex_W o a ts rest r : W o (a :: ts) rest r -> rtok r = TNone /\
  exists t r', lex_token r = Ok (t, r') /\ kind a t /\ W o ts rest r'.
Proof.
  intros (s & b & Hq & Ha & Hn). split; [eapply Q_tok; eauto|].
  inversion Ha as [|w a0 x s' ? ? Bw Hx Hl Hrest]; subst.
  destruct (lex_accept o w a x s' b r Bw Hx) as (t & r' & b' & E & K & H').
  - intro Na. split; [auto|]. intros ->. destruct ts as [|u ts].
    + inversion Hrest; subst. destruct (Hn eq_refl) as [X|(ts' & u & X & Hu)]; [discriminate|]. destruct ts' as [|v ts']; [injection X as ->; contradiction|].
      injection X as _ X. destruct ts'; discriminate.
    + exact (accepts_ne _ _ _ _ _ Hrest eq_refl).
  - exact Hq.
  - exists t, r'. split; [exact E|]. split; [exact K|]. exists s', b'. repeat split; auto. eapply nend_tl; eauto.
Qed.
Lemma kind_not_none a t : kind a t -> same_type t TNone = false.
Proof. intro K. destruct (same_type t TNone) eqn:E; [|reflexivity]. apply same_none in E. subst. now apply kind_none in K. Qed.
Lemma next_W o a ts rest r : wview o (a :: ts) rest r -> exists t r', next_tok r = Ok (t, r') /\ kind a t /\ W o ts rest r'.
Proof.
  intros [H|(a0 & ts' & s & b & t & E & K & Hq & Ha & Hn)].
  - destruct (lex_W _ _ _ _ _ H) as (Et & t & r' & E & K & H'). unfold next_tok. rewrite Et. cbn [same_type]. eauto.
  - injection E as <- <-. unfold next_tok. rewrite (Q_tok _ _ _ _ _ Hq), (kind_not_none _ _ K). exists t, (set_tok TNone r).
    split; [reflexivity|]. split; [exact K|]. exists s, b. split; [eapply Q_settok; eauto|auto].
Qed.
Lemma peek_W o a ts rest r : wview o (a :: ts) rest r -> exists t r', peek_tok r = Ok (t, r') /\ kind a t /\ wview o (a :: ts) rest r'.
Proof.
  intros [H|(a0 & ts' & s & b & t & E & K & Hq & Ha & Hn)].
  - destruct (lex_W _ _ _ _ _ H) as (Et & t & r' & E & K & (s & b & Hq & Ha & Hn)). unfold peek_tok. rewrite Et. cbn [same_type]. rewrite E. cbn [bind].
    exists t, (set_tok t r'). split; [reflexivity|]. split; [exact K|]. right. exists a, ts, s, b, t. repeat split; auto. eapply Q_settok; eauto.
  - injection E as <- <-. unfold peek_tok. rewrite (Q_tok _ _ _ _ _ Hq), (kind_not_none _ _ K). exists t, r. repeat split; auto.
    right. exists a, ts, s, b, t. repeat split; auto.
Qed.
Lemma kind_tok a t : kind a t -> ~ is_num a -> t = tok_of a.
Proof. intros [->|(-> & _)] N; [reflexivity|]. exfalso. apply N. exact Logic.I. Qed.
Lemma kind_arre a t : kind a t -> a <> AArrE -> same_type t TArrE = false.
Proof. intros [->|(_ & ->)] N; [destruct a; try reflexivity; contradiction|reflexivity]. Qed.
Lemma kind_obje a t : kind a t -> a <> AObjE -> same_type t TObjE = false.
Proof. intros [->|(_ & ->)] N; [destruct a; try reflexivity; contradiction|reflexivity]. Qed.

(* ---- the loops ---- *)
Section Skip.
Context (o : ropts) (rest : str) (fuel : nat).
Let sk := fun (r : reader) => do r' <- skip fuel r; Ok (tt, r').
Definition one (it : list atok) : Prop := forall ts r, wview o (it ++ ts) rest r -> exists r', skip fuel r = Ok r' /\ W o ts rest r'.

Lemma array_W its : Forall one its -> its <> [] -> forall i ts r f,
  wview o (sep_by its ++ AArrE :: ts) rest r -> (length its <= f)%nat ->
  exists r', array_loop f (fun _ (_ : unit) r => do r' <- skip fuel r; Ok (tt, r')) i tt r = Ok (tt, r') /\ W o ts rest r'.
Proof.
  induction 1 as [|it its H1 Hall IH]; intros Hne i ts r f Hv Hf; [contradiction|].
  destruct f as [|f]; [cbn in Hf; lia|]. cbn [array_loop]. rewrite (wview_ok _ _ _ _ Hv).
  destruct its as [|it2 its].
  - cbn [sep_by] in Hv. destruct (H1 _ _ Hv) as (r1 & E1 & K1). rewrite E1. cbn [bind].
    destruct (next_W _ _ _ _ _ (W_view _ _ _ _ K1)) as (t & r2 & E2 & Kt & K2). rewrite (kind_tok _ _ Kt (fun x => x)) in E2. rewrite E2. cbn [bind tok_of same_type].
    exists r2. auto.
  - assert (Hv' : wview o (it ++ ASep :: sep_by (it2 :: its) ++ AArrE :: ts) rest r) by (cbn [sep_by] in *; rewrite <- app_assoc in Hv; exact Hv).
    destruct (H1 _ _ Hv') as (r1 & E1 & K1). rewrite E1. cbn [bind].
    destruct (next_W _ _ _ _ _ (W_view _ _ _ _ K1)) as (t & r2 & E2 & Kt & K2). rewrite (kind_tok _ _ Kt (fun x => x)) in E2. rewrite E2. cbn [bind tok_of same_type].
    unfold assert_tok. cbn [same_type]. apply IH; [discriminate|now apply W_view|]. cbn in *. lia.
Qed.
Lemma parse_array_W its ts r f : Forall one its ->
  (forall it its', its = it :: its' -> exists t it', it = t :: it' /\ t <> AArrE) ->
  wview o (arr_toks its ++ ts) rest r -> (length its <= f)%nat ->
  exists r', parse_array f (fun _ (_ : unit) r => do r' <- skip fuel r; Ok (tt, r')) tt r = Ok (tt, r') /\ W o ts rest r'.
Proof.
  intros Hall Hh Hv Hf. unfold arr_toks in Hv. cbn [app] in Hv. unfold parse_array.
  destruct (next_W _ _ _ _ _ Hv) as (t & r1 & E1 & Kt & K1). rewrite (kind_tok _ _ Kt (fun x => x)) in E1. rewrite E1. cbn [bind tok_of same_type].
  unfold assert_tok. cbn [same_type]. rewrite <- app_assoc in K1. cbn [app] in K1.
  destruct its as [|it its].
  - cbn [sep_by app] in K1. destruct (peek_W _ _ _ _ _ (W_view _ _ _ _ K1)) as (t2 & r2 & E2 & Kt2 & K2).
    rewrite (kind_tok _ _ Kt2 (fun x => x)) in E2. rewrite E2. cbn [bind tok_of same_type].
    unfold expect_tok. destruct (next_W _ _ _ _ _ K2) as (t3 & r3 & E3 & Kt3 & K3). rewrite (kind_tok _ _ Kt3 (fun x => x)) in E3. rewrite E3. cbn [bind tok_of same_type].
    exists r3. auto.
  - destruct (Hh it its eq_refl) as (u & it' & -> & Hu).
    assert (Hs : exists l, sep_by ((u :: it') :: its) = u :: l) by (destruct its; cbn [sep_by app]; eexists; reflexivity).
    destruct Hs as (l & Hs). pose proof K1 as K1'. rewrite Hs in K1'. cbn [app] in K1'.
    destruct (peek_W _ _ _ _ _ (W_view _ _ _ _ K1')) as (t2 & r2 & E2 & Kt2 & K2). rewrite E2. cbn [bind]. rewrite (kind_arre _ _ Kt2 Hu).
    assert (K2' : wview o (sep_by ((u :: it') :: its) ++ AArrE :: ts) rest r2) by (rewrite Hs; exact K2).
    exact (array_W _ Hall ltac:(discriminate) 0%nat ts r2 f K2' Hf).
Qed.

Lemma object_W its : Forall (fun kv => one (snd kv)) its -> its <> [] -> forall ts r f,
  wview o (sep_by (map member_toks its) ++ AObjE :: ts) rest r -> (length its <= f)%nat ->
  exists r', object_loop f (fun _ (_ : unit) r => do r' <- skip fuel r; Ok (tt, r')) tt r = Ok (tt, r') /\ W o ts rest r'.
Proof.
  induction 1 as [|[k it] its H1 Hall IH]; intros Hne ts r f Hv Hf; [contradiction|].
  destruct f as [|f]; [cbn in Hf; lia|]. cbn [object_loop]. rewrite (wview_ok _ _ _ _ Hv).
  assert (Hgo : forall tl, wview o (AStr k :: AKey :: it ++ tl) rest r ->
     exists r3, W o tl rest r3 /\ forall K : unit -> reader -> outcome (unit * reader),
     (do (t, r1) <- expect_tok TStr r;
      do _ <- as_string t r1;
      do (_, r2) <- expect_tok TKey r1;
      do (s1, r3) <- (do r' <- skip fuel r2; Ok (tt, r')); K s1 r3) = K tt r3).
  { intros tl Hv'. unfold expect_tok. destruct (next_W _ _ _ _ _ Hv') as (t1 & r1 & E1 & Kt1 & K1). rewrite (kind_tok _ _ Kt1 (fun x => x)) in E1.
    destruct (next_W _ _ _ _ _ (W_view _ _ _ _ K1)) as (t2 & r2 & E2 & Kt2 & K2). rewrite (kind_tok _ _ Kt2 (fun x => x)) in E2.
    destruct (H1 tl r2 (W_view _ _ _ _ K2)) as (r3 & E3 & K3).
    exists r3. split; auto. intro K. rewrite E1. cbn [bind tok_of as_string same_type]. rewrite E2. cbn [bind tok_of same_type].
    rewrite E3. reflexivity. }
  destruct its as [|kit2 its].
  - cbn [sep_by map member_toks fst snd app] in Hv. destruct (Hgo _ Hv) as (r3 & K3 & E3). rewrite E3.
    destruct (next_W _ _ _ _ _ (W_view _ _ _ _ K3)) as (t4 & r4 & E4 & Kt4 & K4). rewrite (kind_tok _ _ Kt4 (fun x => x)) in E4. rewrite E4. cbn [bind tok_of same_type].
    exists r4. auto.
  - assert (Hv' : wview o (AStr k :: AKey :: it ++ ASep :: sep_by (map member_toks (kit2 :: its)) ++ AObjE :: ts) rest r).
    { change (map member_toks ((k, it) :: kit2 :: its)) with ((AStr k :: AKey :: it) :: map member_toks (kit2 :: its)) in Hv.
      change (map member_toks (kit2 :: its)) with (member_toks kit2 :: map member_toks its) in *.
      cbn [sep_by] in *. rewrite <- app_assoc in Hv. exact Hv. }
    destruct (Hgo _ Hv') as (r3 & K3 & E3). rewrite E3.
    destruct (next_W _ _ _ _ _ (W_view _ _ _ _ K3)) as (t4 & r4 & E4 & Kt4 & K4). rewrite (kind_tok _ _ Kt4 (fun x => x)) in E4. rewrite E4. cbn [bind tok_of same_type].
    unfold assert_tok. cbn [same_type]. apply IH; [discriminate|now apply W_view|]. cbn in *. lia.
Qed.
Lemma parse_object_W its ts r f : Forall (fun kv => one (snd kv)) its ->
  wview o (obj_toks its ++ ts) rest r -> (length its <= f)%nat ->
  exists r', parse_object f (fun _ (_ : unit) r => do r' <- skip fuel r; Ok (tt, r')) tt r = Ok (tt, r') /\ W o ts rest r'.
Proof.
  intros Hall Hv Hf. unfold obj_toks in Hv. cbn [app] in Hv. unfold parse_object.
  destruct (next_W _ _ _ _ _ Hv) as (t & r1 & E1 & Kt & K1). rewrite (kind_tok _ _ Kt (fun x => x)) in E1. rewrite E1. cbn [bind tok_of same_type].
  unfold assert_tok. cbn [same_type]. rewrite <- app_assoc in K1. cbn [app] in K1.
  destruct its as [|[k it] its].
  - cbn [map sep_by app] in K1. destruct (peek_W _ _ _ _ _ (W_view _ _ _ _ K1)) as (t2 & r2 & E2 & Kt2 & K2).
    rewrite (kind_tok _ _ Kt2 (fun x => x)) in E2. rewrite E2. cbn [bind tok_of same_type].
    unfold expect_tok. destruct (next_W _ _ _ _ _ K2) as (t3 & r3 & E3 & Kt3 & K3). rewrite (kind_tok _ _ Kt3 (fun x => x)) in E3. rewrite E3. cbn [bind tok_of same_type].
    exists r3. auto.
  - assert (Hs : exists u, sep_by (map member_toks ((k, it) :: its)) = AStr k :: u)
      by (destruct its; cbn [sep_by map member_toks fst snd app]; eexists; reflexivity).
    destruct Hs as (u & Hs). pose proof K1 as K1'. rewrite Hs in K1'. cbn [app] in K1'.
    destruct (peek_W _ _ _ _ _ (W_view _ _ _ _ K1')) as (t2 & r2 & E2 & Kt2 & K2). rewrite (kind_tok _ _ Kt2 (fun x => x)) in E2. rewrite E2. cbn [bind tok_of same_type].
    assert (K2' : wview o (sep_by (map member_toks ((k, it) :: its)) ++ AObjE :: ts) rest r2) by (rewrite Hs; exact K2).
    exact (object_W _ Hall ltac:(discriminate) ts r2 f K2' Hf).
Qed.
End Skip.

Lemma skip_W o rest j : forall ts r fuel, wview o (toks j ++ ts) rest r -> (jsize j < fuel)%nat ->
  exists r', skip fuel r = Ok r' /\ W o ts rest r'.
Proof.
  induction j as [ | | | | |l IH|l IH] using json_ind'; intros ts r fuel Hv Hf;
    (destruct fuel as [|fuel]; [lia|]); cbn [skip];
    try (cbn [toks app] in Hv;
         destruct (peek_W _ _ _ _ _ Hv) as (t1 & r1 & E1 & Kt1 & K1); rewrite E1; cbn [bind];
         rewrite (wview_ok _ _ _ _ K1); cbn [negb];
         destruct (next_W _ _ _ _ _ K1) as (t2 & r2 & E2 & _ & K2); rewrite E2; cbn [bind];
         destruct Kt1 as [->|(_ & ->)]; cbn [tok_of]; exists r2; solve [auto]).
  - rewrite toks_arr in Hv. unfold arr_toks in Hv. cbn [app] in Hv.
    destruct (peek_W _ _ _ _ _ Hv) as (t1 & r1 & E1 & Kt1 & K1). rewrite (kind_tok _ _ Kt1 (fun x => x)) in E1. rewrite E1; cbn [bind tok_of].
    rewrite (wview_ok _ _ _ _ K1). cbn [negb].
    change (wview o (arr_toks (map toks l) ++ ts) rest r1) in K1.
    pose proof (jsize_len_arr l) as Hl.
    edestruct (parse_array_W o rest fuel (map toks l)) as (r2 & E2 & K2); [| |exact K1| |rewrite E2; cbn [bind]; exists r2; auto].
    + rewrite Forall_forall in IH |- *. intros it Hit. apply in_map_iff in Hit as (x & <- & Hx). intros ts' r' Hv'.
      apply (IH x Hx); auto. pose proof (jsize_in_arr l x Hx). lia.
    + intros it its' E. destruct l as [|x l]; [discriminate|]. cbn [map] in E. apply cons_inv in E as [<- _].
      destruct (toks_head x) as (t & ts' & E & Ht & _). eauto.
    + rewrite map_length. lia.
  - rewrite toks_obj in Hv. unfold obj_toks in Hv. cbn [app] in Hv.
    destruct (peek_W _ _ _ _ _ Hv) as (t1 & r1 & E1 & Kt1 & K1). rewrite (kind_tok _ _ Kt1 (fun x => x)) in E1. rewrite E1; cbn [bind tok_of].
    rewrite (wview_ok _ _ _ _ K1). cbn [negb].
    change (wview o (obj_toks (map (fun kv => (fst kv, toks (snd kv))) l) ++ ts) rest r1) in K1.
    pose proof (jsize_len_obj l) as Hl.
    edestruct (parse_object_W o rest fuel (map (fun kv => (fst kv, toks (snd kv))) l)) as (r2 & E2 & K2); [|exact K1| |rewrite E2; cbn [bind]; exists r2; auto].
    + rewrite Forall_forall in IH |- *. intros it Hit. apply in_map_iff in Hit as (x & <- & Hx). intros ts' r' Hv'.
      apply (IH x Hx); auto. pose proof (jsize_in_obj l x Hx). lia.
    + rewrite map_length. lia.
Qed.

(* ---- texts that end early ---- *)
Lemma skip_comment_end o bf t : forall b r fuel, ~ In 10 b -> Q o b bf t r -> (length b < fuel)%nat ->
  exists r', skip_comment (S fuel) r = Ok r' /\ ended r'.
Proof.
  induction b as [|c b IH]; intros r fuel Hn Hq Hf; cbn [skip_comment]; rewrite (Q_ok _ _ _ _ _ Hq).
  - destruct (popc r) as [c r1] eqn:Ep. destruct (pop_inv _ _ _ _ _ _ _ Hq Ep) as [(s' & X & _)|(_ & -> & En)]; [discriminate|].
    change (255 =? c_nl) with false. cbv iota. destruct fuel as [|fuel]; [cbn in Hf; lia|]. cbn [skip_comment]. rewrite (ended_not_ok _ En). eauto.
  - apply Q_R in Hq. rpop Hq r1 H1. destruct (N.eqb_spec c c_nl) as [->|Hc]; [exfalso; apply Hn; now left|].
    destruct fuel as [|fuel]; [cbn in Hf; lia|]. apply (IH r1 fuel); [intro X; apply Hn; now right|now apply R_Q|cbn in Hf; lia].
Qed.
Lemma next_char_blank o w : blank (dia o) w -> forall s bf t r fuel, Q o (w ++ s) bf t r -> (length w + 2 <= fuel)%nat ->
  exists r' fuel', next_char fuel r = next_char fuel' r' /\ Q o s bf t r' /\ (2 <= fuel')%nat.
Proof.
  induction 1 as [|a w Ha Hw IH|b w Hd Hb Hw IH]; intros s bf t r fuel Hr Hf.
  - exists r, fuel. cbn in Hf. auto.
  - destruct fuel as [|fuel]; [lia|]. cbn [next_char app] in *. rewrite (Q_ok _ _ _ _ _ Hr). apply Q_R in Hr. rpop Hr r1 H1.
    rewrite (proj2 (isspace_iff a) Ha). apply (IH s bf t); [|cbn in Hf; lia].
    apply R_Q. destruct (a =? c_nl); [apply R_newline|]; assumption.
  - destruct fuel as [|fuel]; [lia|]. cbn [next_char app] in *. rewrite (Q_ok _ _ _ _ _ Hr). apply Q_R in Hr. rpop Hr r1 H1.
    change (47 =? c_nl) with false. cbv iota. change (isspace 47) with false. cbv iota.
    change (47 =? c_slash) with true. cbv iota.
    rewrite (R_peek _ _ _ _ _ _ H1). change (47 =? c_slash) with true. cbv iota.
    rewrite (R_opt _ _ _ _ _ H1). cbn [dia d_comments] in Hd. rewrite Hd.
    assert (H1b : R o ((47 :: b) ++ 10 :: (w ++ s)) bf t r1).
    { rewrite <- !app_assoc in H1. cbn [app] in *. assumption. }
    destruct (skip_comment_ok o (47 :: b) (w ++ s) bf t r1 (rfuel r1)) as (r2 & E2 & H2); auto.
    { intros [X|X]; [discriminate|contradiction]. }
    { unfold rfuel. rewrite (R_in _ _ _ _ _ H1b), app_length. cbn. lia. }
    rewrite E2. cbn [bind]. apply (IH s bf t); [now apply R_Q|]. cbn [length] in Hf. rewrite app_length in Hf. cbn [length] in Hf. nlia.
Qed.
Lemma next_char_quits o s b t r : blank_end (dia o) s -> Q o s b t r -> exists c r', next_char (rfuel r) r = Ok (c, r') /\ ended r'.
Proof.
  intros H Hq. unfold rfuel. rewrite (Q_in _ _ _ _ _ Hq). destruct H as [w Bw|w bb Hc Bw Nb].
  - destruct (next_char_blank o w Bw [] b t r (S (S (length w)))) as (r1 & f & E & H1 & Hf); [now rewrite app_nil_r|lia|]. rewrite E.
    destruct f as [|f]; [lia|]. cbn [next_char]. rewrite (Q_ok _ _ _ _ _ H1). destruct (popc r1) as [c r2] eqn:Ep.
    destruct (pop_inv _ _ _ _ _ _ _ H1 Ep) as [(s' & X & _)|(_ & -> & En)]; [discriminate|].
    change (255 =? c_nl) with false. change (isspace 255) with false. change (255 =? c_slash) with false. cbv iota. eauto.
  - destruct (next_char_blank o w Bw (47 :: 47 :: bb) b t r (S (S (length (w ++ 47 :: 47 :: bb)))) Hq) as (r1 & f & E & H1 & Hf).
    { rewrite app_length. lia. }
    rewrite E. destruct f as [|[|f]]; [lia|lia|]. cbn [next_char]. rewrite (Q_ok _ _ _ _ _ H1). apply Q_R in H1. rpop H1 r2 H2.
    change (47 =? c_nl) with false. cbv iota. change (isspace 47) with false. cbv iota.
    change (47 =? c_slash) with true. cbv iota.
    rewrite (R_peek _ _ _ _ _ _ H2). change (47 =? c_slash) with true. cbv iota.
    rewrite (R_opt _ _ _ _ _ H2). cbn [dia d_comments] in Hc. rewrite Hc.
    destruct (skip_comment_end o b t (47 :: bb) r2 (S (length (rin r2)))) as (r3 & E3 & En).
    { intros [X|X]; [discriminate|contradiction]. }
    { now apply R_Q. }
    { rewrite (R_in _ _ _ _ _ H2). cbn [length]; nlia. }
    unfold rfuel. rewrite E3. cbn [bind]. rewrite (ended_not_ok _ En). eauto.
Qed.
Lemma lex_blank_end o s b r : blank_end (dia o) s -> Q o s b TNone r -> exists r', lex_token r = Ok (TEOS, r') /\ ended r'.
Proof.
  intros H Hq. destruct (next_char_quits _ _ _ _ _ H Hq) as (c & r' & E & En). unfold lex_token. rewrite (Q_ok _ _ _ _ _ Hq). cbn [negb].
  rewrite E. cbn [bind]. rewrite (ended_not_ok _ En). cbn [negb]. eauto.
Qed.
Lemma open_sloppy x : open_number x -> sloppy_number x.
Proof.
  intros (c & ds & fr & ex & Hc & Hd & Hf & He & ->). exists c, ds, fr, ex. repeat split; auto.
  destruct He as [->|[->| ->]]; [now left|right; exists 101, [], []|right; exists 69, [], []]; cbn; repeat split; auto; constructor.
Qed.
Lemma sloppy_token d x : sloppy_number x -> exists a, is_num a /\ tok_accept d a x.
Proof.
  intros Sx. pose proof Sx as (c & ds & fr & ex & Hc & Hd & Hf & He & Ex).
  assert (D : (fr = [] /\ ex = []) \/ (fr <> [] \/ ex <> [])) by (destruct fr; [destruct ex; [left; auto|right; right; discriminate]|right; left; discriminate]).
  destruct D as [(-> & ->)|D].
  - rewrite !app_nil_r in Ex. destruct (list_eq_dec N.eq_dec (c :: ds) [45]) as [Eq|Ne].
    + exists (AFloat x). split; [exact Logic.I|]. apply ta_sloppy; [exact Sx|]. intros z Hz. rewrite Ex, Eq in Hz. now apply int_text_lone in Hz.
    + destruct (number_int c ds Hc Hd Ne) as (z & Hz). exists (AInt z). split; [exact Logic.I|]. apply ta_text. rewrite Ex. constructor. exact Hz.
  - exists (AFloat x). split; [exact Logic.I|]. apply ta_sloppy; [exact Sx|]. intros z Hz. rewrite Ex in Hz. eapply not_int_frac; eauto.
Qed.
Lemma lex_no_more o s b r : no_more (dia o) s -> Q o s b TNone r ->
  exists t r', lex_token r = Ok (t, r') /\ ended r' /\ (t = TEOS \/ t = TInt \/ t = TFloat).
Proof.
  intros [s' H|w x Bw Ox] Hq.
  - destruct (lex_blank_end _ _ _ _ H Hq) as (r' & E & En). eauto 6.
  - destruct (sloppy_token (dia o) x (open_sloppy _ Ox)) as (a & Na & Ta).
    destruct (lex_number o w a x [] b r Bw Ta Na (longest_nil x)) as (t & r' & E & K & _ & En).
    { rewrite app_nil_r. destruct Ox as (c & ds & fr & ex & _ & _ & _ & _ & ->). destruct w; now apply Q_R in Hq. }
    exists t, r'. split; [exact E|]. split; [now apply En|]. destruct K as [->|(_ & ->)]; [destruct a; auto; contradiction|auto].
Qed.
Lemma peek_no_more o s b r : no_more (dia o) s -> Q o s b TNone r ->
  exists t r', peek_tok r = Ok (t, r') /\ ended r' /\ (t = TEOS \/ t = TInt \/ t = TFloat).
Proof.
  intros H Hq. destruct (lex_no_more _ _ _ _ H Hq) as (t & r' & E & En & K). unfold peek_tok. rewrite (Q_tok _ _ _ _ _ Hq). cbn [same_type].
  rewrite E. cbn [bind]. exists t, (set_tok t r'). auto.
Qed.
Lemma skip_unfinished o s b r : unfinished (dia o) s -> Q o s b TNone r -> exists fuel r', skip fuel r = Ok r' /\ rerr r' = None.
Proof.
  intros [s' H|w c s' Bw Hc H] Hq.
  - destruct (peek_no_more _ _ _ _ H Hq) as (t & r' & E & En & K). exists 1%nat, r'. cbn [skip]. rewrite E. cbn [bind].
    rewrite (ended_not_ok _ En). cbn [negb]. split; [reflexivity|apply En].
  - assert (Ha : exists a, tok_accept (dia o) a [c] /\ ~ is_num a /\ ((a = AArrS /\ c = 91) \/ (a = AObjS /\ c = 123))).
    { destruct Hc as [->| ->]; [exists AArrS|exists AObjS]; (split; [apply ta_text; constructor|]; split; [exact (fun x => x)|auto]). }
    destruct Ha as (a & Ta & Na & Da).
    destruct (lex_accept o w a [c] s' b r Bw Ta ltac:(intro; contradiction) Hq) as (t & r1 & b1 & E1 & K1 & H1). rewrite (kind_tok _ _ K1 Na) in E1.
    exists 2%nat. change (skip 2 r) with (do (t, r1) <- peek_tok r;
      if negb (rok r1) then Ok r1 else
      match t with
      | TNull | TBool _ | TInt | TFloat | TStr => do (_, r2) <- next_tok r1; Ok r2
      | TArrS => do (_, r2) <- parse_array 1 (fun _ (_ : unit) r => do r' <- skip 1 r; Ok (tt, r')) tt r1; Ok r2
      | TObjS => do (_, r2) <- parse_object 1 (fun _ (_ : unit) r => do r' <- skip 1 r; Ok (tt, r')) tt r1; Ok r2
      | _ => UB
      end).
    unfold peek_tok at 1. rewrite (Q_tok _ _ _ _ _ Hq). cbn [same_type]. rewrite E1. cbn [bind].
    pose proof (Q_settok _ _ _ _ (tok_of a) _ H1) as H2. rewrite (Q_ok _ _ _ _ _ H2). cbn [negb].
    set (r2 := set_tok (tok_of a) r1) in *. pose proof (Q_settok _ _ _ _ TNone _ H2) as H3.
    destruct (peek_no_more _ _ _ _ H H3) as (t3 & r3 & E3 & En & K3).
    assert (N3 : same_type t3 TArrE = false /\ same_type t3 TObjE = false) by (destruct K3 as [->|[->| ->]]; auto). destruct N3 as (N3 & N3').
    destruct Da as [(-> & _)|(-> & _)]; cbn [tok_of]; cbn [tok_of] in H2; [unfold parse_array|unfold parse_object]; unfold next_tok at 1; rewrite (Q_tok _ _ _ _ _ H2);
      cbn [same_type bind]; unfold assert_tok; cbn [same_type]; rewrite E3; cbn [bind]; [rewrite N3; cbn [array_loop]|rewrite N3'; cbn [object_loop]]; rewrite (ended_not_ok _ En); cbn [bind];
      exists r3; (split; [reflexivity|apply En]).
Qed.

(* ---- documents ---- *)
Lemma toks_nend d j s rest : doc_text d j s rest -> (rest <> [] \/ ~ is_number j) -> nend (toks j) rest.
Proof.
  intros _ [H|H] E; [contradiction|]. right. destruct j as [|bb|z|x|v|l|l]; try (exfalso; apply H; exact Logic.I).
  1-3: (exists []; eexists; split; [reflexivity|exact (fun x => x)]).
  - rewrite toks_arr. exists (AArrS :: sep_by (map toks l)), AArrE. split; [reflexivity|exact (fun x => x)].
  - rewrite toks_obj. exists (AObjS :: sep_by (map member_toks (map (fun kv => (fst kv, toks (snd kv))) l))), AObjE. split; [reflexivity|exact (fun x => x)].
Qed.
Lemma skip_doc o j s rest b r : doc_text (dia o) j s rest -> Q o s b TNone r -> forall fuel, (jsize j < fuel)%nat ->
  exists r', skip fuel r = Ok r' /\ rerr r' = None /\ (rest <> [] \/ rok r' = true -> rin r' = rest).
Proof.
  intros D Hq fuel Hf. assert (C : (rest = [] /\ is_number j) \/ (rest <> [] \/ ~ is_number j)).
  { destruct rest; [|right; left; discriminate]. destruct j; cbn; auto. }
  destruct C as [(-> & Nj)|C].
  - assert (T : exists a, toks j = [a] /\ is_num a) by (destruct j; try contradiction; eexists; split; try reflexivity; exact Logic.I).
    destruct T as (a & Tj & Na). unfold doc_text in D. rewrite Tj in D. inversion D as [|w a0 x s' ? ? Bw Ta Lg Dr E1 E2 E3]. subst.
    inversion Dr; subst. destruct (lex_number o w a x [] b r Bw Ta Na (Lg Na)) as (t & r1 & E & K & H1 & _).
    { destruct (accept_first _ _ _ Ta) as (c & x' & -> & _). destruct w; now apply Q_R in Hq. }
    assert (Kt : t = TInt \/ t = TFloat) by (destruct K as [->|(_ & ->)]; [destruct a; auto; contradiction|auto]).
    destruct fuel as [|fuel]; [lia|]. cbn [skip]. unfold peek_tok. rewrite (Q_tok _ _ _ _ _ Hq). cbn [same_type]. rewrite E. cbn [bind].
    destruct H1 as [H1|(En & _ & _)].
    + pose proof (Q_settok _ _ _ _ t _ H1) as H2. rewrite (Q_ok _ _ _ _ _ H2). cbn [negb]. unfold next_tok. rewrite (Q_tok _ _ _ _ _ H2).
      pose proof (Q_settok _ _ _ _ TNone _ H2) as H3.
      exists (set_tok TNone (set_tok t r1)). split; [destruct Kt as [->| ->]; reflexivity|]. destruct H3 as (e & p & l & -> & _). auto.
    + assert (En' : ended (set_tok t r1)) by exact En. rewrite (ended_not_ok _ En'). cbn [negb]. exists (set_tok t r1). split; [reflexivity|]. split; [apply En'|].
      intros [X|X]; [now elim X|]. rewrite (ended_not_ok _ En') in X. discriminate.
  - destruct (skip_W o rest j [] r fuel) as (r' & E & s' & b' & H & Ac & _); [|exact Hf|].
    + left. exists s, b. rewrite app_nil_r. split; [exact Hq|]. split; [exact D|]. eapply toks_nend; eauto.
    + exists r'. split; [exact E|]. inversion Ac; subst. split; [destruct H as (e & p & l & -> & _); reflexivity|]. intros _. apply (Q_in _ _ _ _ _ H).
Qed.
