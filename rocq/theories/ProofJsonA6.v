(* ProofJsonA6.v - soundness of the typed parsers *)
From Coq Require String. Import String.StringSyntax.
From Verif Require Import Base Dec ModelJson ModelJsonW ModelJsonT SpecJson SpecJsonT SpecJsonA ProofJson1 ProofJson2 ProofJson3 ProofJson4 ProofJson5 ProofJson8 ProofJson9 ProofJsonT1 ProofJsonT4 ProofJsonA1 ProofJsonA2 ProofJsonA3 ProofJsonA4 ProofJsonA5.
Local Open Scope outcome_scope.

Section T.
Variables (o : ropts) (e : env).
Hypothesis (Ee : env_ok e) (Es : env_shaped e).

Lemma ref_shaped t d i : nth_error e t = Some d -> In i (refs d) -> shaped e i (dval e i).
Proof.
  intros Hd Hi. destruct (Ee _ _ Hd) as (_ & R). specialize (R _ Hi). apply nth_error_Some in R.
  destruct (nth_error e i) as [di|] eqn:Ei; [|congruence]. apply (Es _ _ Ei).
Qed.

Lemma shaped_ptr t sm i v : nth_error e t = Some (DPtr sm i) -> shaped e t v ->
  v = VPtr None \/ exists p, v = VPtr (Some p) /\ shaped e i p.
Proof.
  intros Hd H. inversion H as [? d ? Hd' Hm|? ? ? Hd'|? ? ? p Hd' Hp|? ? ? Hd'|? ? ? Hd'|? ? ? ? Hd']; subst; rewrite Hd in Hd'; try discriminate.
  - injection Hd' as <-. contradiction.
  - now left.
  - injection Hd' as <- <-. right. eauto.
Qed.
Lemma shaped_list t i v : nth_error e t = Some (DList i) -> shaped e t v -> exists l, v = VList l.
Proof.
  intros Hd H. inversion H as [? d ? Hd' Hm|? ? ? Hd'|? ? ? p Hd' Hp|? ? ? Hd'|? ? ? Hd'|? ? ? ? Hd']; subst; rewrite Hd in Hd'; try discriminate; eauto.
  injection Hd' as <-. contradiction.
Qed.
Lemma shaped_map t i v : nth_error e t = Some (DMap i) -> shaped e t v -> exists m, v = VMap m /\ sorted (akeys m).
Proof.
  intros Hd H. inversion H as [? d ? Hd' Hm|? ? ? Hd'|? ? ? p Hd' Hp|? ? ? Hd'|? ? ? Hd'|? ? ? ? Hd']; subst; rewrite Hd in Hd'; try discriminate; eauto.
  injection Hd' as <-. contradiction.
Qed.
Definition flds (fs : list field) (ob : list (str * val)) : Prop :=
  forall f, In f fs -> f_skip f = false -> exists x, afind (f_key f) ob = Some x /\ shaped e (f_type f) x.
Lemma shaped_obj t fs ini v : nth_error e t = Some (DObj fs ini) -> shaped e t v -> exists ob, v = VObj ob /\ flds fs ob.
Proof.
  intros Hd H. inversion H as [? d ? Hd' Hm|? ? ? Hd'|? ? ? p Hd' Hp|? ? ? Hd'|? ? ? Hd'|? ? ? ? Hd' Hf]; subst; rewrite Hd in Hd'; try discriminate.
  - injection Hd' as <-. contradiction.
  - injection Hd' as <- <-. eauto.
Qed.
Lemma not_raw t d j : nth_error e t = Some d -> (forall i, d <> DPtr false i) -> ~ raw_null e t j.
Proof. intros Hd N (_ & i & X). rewrite Hd in X. injection X as ->. now apply (N i). Qed.
Lemma nn_raw t j : j <> JNull -> ~ raw_null e t j. Proof. intros N (X & _). contradiction. Qed.

(* ---- a number is the look-ahead at the end of the text ---- *)
Lemma t_num : forall fuel t v a r v' mv r', numstate a r -> shaped e t v -> parse_t fuel e t v r = Ok (v', mv, r') ->
  errd r' \/ (ended r' /\ rtok r' = TNone /\ exists j, is_number j /\ ntok j = a /\ reads e t v j v').
Proof.
  induction fuel as [|f IH]; intros t v a r v' mv r' H Sh X; [discriminate|]. cbn [parse_t] in X.
  destruct (nth_error e t) as [d|] eqn:Hd; [|discriminate].
  assert (Tn : forall q r1, next_tok r = Ok (q, r1) -> q = TInt \/ q = TFloat).
  { intros q r1 Y. destruct (next_num _ _ _ _ H Y) as (-> & _). destruct H as (_ & N & K & _). eapply num_tok; eauto. }
  assert (Nx : exists q r1, next_tok r = Ok (q, r1)).
  { unfold next_tok. destruct (same_type (rtok r) TNone) eqn:Z; [|eauto]. apply same_none in Z. destruct H as (_ & _ & K & _). rewrite Z in K. now apply kind_none in K. }
  destruct Nx as (q & rq & Nx). pose proof (Tn _ _ Nx) as Tq.
  destruct d as [|i64|dbl| |sm i|i|i| |fs ini].
  - apply bind_Ok in X as ([x r1] & X1 & X). injection X as <- <- <-.
    unfold parse_bool in X1. apply bind_Ok in X1 as ([t1 r2] & E1 & X1). apply bind_Ok in X1 as (v1 & Ev & _).
    destruct (expect_inv _ _ _ _ E1) as [(E2 & T)|(-> & _)]; [|discriminate Ev]. destruct (Tn _ _ E2) as [->| ->]; discriminate.
  - apply bind_Ok in X as ([x r1] & X1 & X). destruct i64; [|discriminate]. injection X as <- <- <-.
    destruct (int_num _ _ _ _ H X1) as (-> & Iz & En & T). right. split; [exact En|]. split; [exact T|].
    exists (JInt x). split; [exact I|]. split; [reflexivity|]. now apply rd_int.
  - apply bind_Ok in X as ([x r1] & X1 & X). destruct dbl; [|discriminate]. injection X as <- <- <-.
    destruct (float_num _ _ _ _ H X1) as (-> & Iz & En & T). right. split; [exact En|]. split; [exact T|].
    exists (JFloat x). split; [exact I|]. split; [reflexivity|]. now apply rd_float.
  - apply bind_Ok in X as ([x r1] & X1 & X). injection X as <- <- <-.
    unfold parse_string in X1. apply bind_Ok in X1 as ([t1 r2] & E1 & X1). apply bind_Ok in X1 as (v1 & Ev & _).
    destruct (expect_inv _ _ _ _ E1) as [(E2 & T)|(-> & _)]; [|discriminate Ev]. destruct (Tn _ _ E2) as [->| ->]; discriminate.
  - apply bind_Ok in X as ([tk r1] & X1 & X). destruct (peek_num _ _ _ _ H X1) as (-> & ->).
    assert (Y : same_type (rtok r) TNull = false).
    { destruct H as (_ & N & K & _). destruct (num_tok _ _ N K) as [->| ->]; reflexivity. }
    rewrite Y in X. cbv zeta in X. apply bind_Ok in X as ([[p' mv'] r2] & X2 & X). injection X as <- <- <-.
    assert (Hi : shaped e i (dval e i)) by (eapply ref_shaped; [exact Hd|now left]).
    destruct (shaped_ptr _ _ _ _ Hd Sh) as [->|(p & -> & Hp)].
    + destruct (IH _ _ _ _ _ _ _ H Hi X2) as [Z|(En & T & j & Nj & Ej & Rj)]; [now left|right].
      split; [exact En|]. split; [exact T|]. exists j. split; [exact Nj|]. split; [exact Ej|]. apply rd_ptr with (sm := sm) (i := i) (p := None); auto.
      intros ->. contradiction.
    + destruct (IH _ _ _ _ _ _ _ H Hp X2) as [Z|(En & T & j & Nj & Ej & Rj)]; [now left|right].
      split; [exact En|]. split; [exact T|]. exists j. split; [exact Nj|]. split; [exact Ej|]. apply rd_ptr with (sm := sm) (i := i) (p := Some p); auto.
      intros ->. contradiction.
  - apply bind_Ok in X as ([m r1] & X1 & X). injection X as <- <- <-. left.
    eapply object_not; [|exact X1|exact Nx|destruct Tq as [->| ->]; reflexivity|destruct Tq as [->| ->]; reflexivity].
    cbv beta. intros k s1 q1 s' q' Hq. apply bind_Ok in Hq as ([[x b] q2] & K0 & Hq). apply rs_typed in K0.
    destruct (rok q2); [destruct b; [discriminate|]|]; injection Hq as <- <-; auto.
  - apply bind_Ok in X as ([m r1] & X1 & X). injection X as <- <- <-. left.
    eapply array_not; [|exact X1|exact Nx|destruct Tq as [->| ->]; reflexivity|destruct Tq as [->| ->]; reflexivity].
    cbv beta. intros k s1 q1 s' q' Hq. apply bind_Ok in Hq as ([[x b] q2] & K0 & Hq). apply rs_typed in K0.
    destruct (rok q2); [destruct b; [discriminate|]|]; injection Hq as <- <-; auto.
  - apply bind_Ok in X as ([x r1] & X1 & X). injection X as <- <- <-.
    destruct (dyn_num _ _ _ _ _ _ H X1) as (En & T & j & Nj & Ej & Jo & ->). right.
    split; [exact En|]. split; [exact T|]. exists j. split; [exact Nj|]. split; [exact Ej|]. apply rd_dyn; auto. intros ->. contradiction.
  - apply bind_Ok in X as ([m r1] & X1 & X). injection X as <- <- <-. left.
    eapply object_not; [|exact X1|exact Nx|destruct Tq as [->| ->]; reflexivity|destruct Tq as [->| ->]; reflexivity].
    cbv beta. intros k s1 q1 s' q' Hq. destruct (find_alias fs k).
    + apply bind_Ok in Hq as ([[x b] q2] & K0 & Hq). apply rs_typed in K0. injection Hq as <- <-. auto.
    + apply bind_Ok in Hq as (q2 & K0 & Hq). injection Hq as <- <-. eapply rs_skip; eauto.
Qed.

(* ---- the text has ended ---- *)
Lemma t_eos : forall fuel t v r v' mv r', ended r -> rtok r = TEOS \/ rtok r = TNone -> parse_t fuel e t v r = Ok (v', mv, r') -> errd r'.
Proof.
  induction fuel as [|f IH]; intros t v r v' mv r' En Ht X; [discriminate|]. cbn [parse_t] in X.
  destruct (nth_error e t) as [d|] eqn:Hd; [|discriminate].
  assert (Nx : exists r1, next_tok r = Ok (TEOS, r1)).
  { unfold next_tok. destruct Ht as [Ht|Ht]; rewrite Ht; cbn [same_type]; [eauto|]. rewrite (lex_not_ok _ (ended_not_ok _ En)). eauto. }
  destruct Nx as (rq & Nx).
  destruct d as [|i64|dbl| |sm i|i|i| |fs ini].
  - apply bind_Ok in X as ([x r1] & X1 & X).
    unfold parse_bool in X1. apply bind_Ok in X1 as ([t1 r2] & E1 & X1). apply bind_Ok in X1 as (v1 & Ev & _).
    destruct (expect_inv _ _ _ _ E1) as [(E2 & T)|(-> & _)]; [|discriminate Ev]. rewrite Nx in E2. injection E2 as <- <-. discriminate T.
  - apply bind_Ok in X as ([x r1] & X1 & X).
    unfold parse_int in X1. apply bind_Ok in X1 as ([t1 r2] & E1 & X1). apply bind_Ok in X1 as (v1 & Ev & _).
    destruct (expect_inv _ _ _ _ E1) as [(E2 & T)|(-> & _)]; [|discriminate Ev]. rewrite Nx in E2. injection E2 as <- <-. discriminate T.
  - apply bind_Ok in X as ([x r1] & X1 & X).
    unfold parse_float in X1. apply bind_Ok in X1 as ([t1 r2] & E1 & X1). apply bind_Ok in X1 as (v1 & Ev & _).
    rewrite Nx in E1. injection E1 as <- <-. discriminate Ev.
  - apply bind_Ok in X as ([x r1] & X1 & X).
    unfold parse_string in X1. apply bind_Ok in X1 as ([t1 r2] & E1 & X1). apply bind_Ok in X1 as (v1 & Ev & _).
    destruct (expect_inv _ _ _ _ E1) as [(E2 & T)|(-> & _)]; [|discriminate Ev]. rewrite Nx in E2. injection E2 as <- <-. discriminate T.
  - apply bind_Ok in X as ([tk r1] & X1 & X).
    assert (Y : tk = TEOS /\ ended r1 /\ rtok r1 = TEOS).
    { unfold peek_tok in X1. destruct Ht as [Ht|Ht]; rewrite Ht in X1; cbn [same_type] in X1.
      - injection X1 as <- <-. auto.
      - rewrite (lex_not_ok _ (ended_not_ok _ En)) in X1. cbn [bind] in X1. injection X1 as <- <-. repeat split; auto; apply En. }
    destruct Y as (-> & En1 & Ht1). cbn [same_type] in X. cbv zeta in X. apply bind_Ok in X as ([[p' mv'] r2] & X2 & X). injection X as <- <- <-.
    eapply IH; [exact En1|now left|exact X2].
  - apply bind_Ok in X as ([m r1] & X1 & X). injection X as <- <- <-.
    eapply object_not; [|exact X1|exact Nx|reflexivity|reflexivity].
    cbv beta. intros k s1 q1 s' q' Hq. apply bind_Ok in Hq as ([[x b] q2] & K0 & Hq). apply rs_typed in K0.
    destruct (rok q2); [destruct b; [discriminate|]|]; injection Hq as <- <-; auto.
  - apply bind_Ok in X as ([m r1] & X1 & X). injection X as <- <- <-.
    eapply array_not; [|exact X1|exact Nx|reflexivity|reflexivity].
    cbv beta. intros k s1 q1 s' q' Hq. apply bind_Ok in Hq as ([[x b] q2] & K0 & Hq). apply rs_typed in K0.
    destruct (rok q2); [destruct b; [discriminate|]|]; injection Hq as <- <-; auto.
  - apply bind_Ok in X as ([x r1] & X1 & X). injection X as <- <- <-. eapply dyn_eos; eauto.
  - apply bind_Ok in X as ([m r1] & X1 & X). injection X as <- <- <-.
    eapply object_not; [|exact X1|exact Nx|reflexivity|reflexivity].
    cbv beta. intros k s1 q1 s' q' Hq. destruct (find_alias fs k).
    + apply bind_Ok in Hq as ([[x b] q2] & K0 & Hq). apply rs_typed in K0. injection Hq as <- <-. auto.
    + apply bind_Ok in Hq as (q2 & K0 & Hq). injection Hq as <- <-. eapply rs_skip; eauto.
Qed.

(* ---- containers: what the loops build ---- *)
Definition lelem (i : nat) (_ : nat) (l : list val) (it : list atok) (l' : list val) : Prop :=
  exists j x, it = toks j /\ ~ raw_null e i j /\ reads e i (dval e i) j x /\ l' = l ++ [x].
Lemma lchain i n l its l' : achain (lelem i) n l its l' -> exists js xs, its = map toks js /\ reads_items e i js xs /\ l' = l ++ xs.
Proof.
  induction 1 as [n l it l1 (j & x & -> & Nr & Rx & ->)|n l it l1 its l2 (j & x & -> & Nr & Rx & ->) _ _ (js & xs & -> & Ri & ->)].
  - exists [j], [x]. repeat split. apply ri_cons; auto. constructor.
  - exists (j :: js), (x :: xs). split; [reflexivity|]. split; [now apply ri_cons|]. now rewrite <- app_assoc.
Qed.
Definition melem (i : nat) (k : str) (m : list (str * val)) (it : list atok) (m' : list (str * val)) : Prop :=
  exists j x, it = toks j /\ ~ raw_null e i j /\ reads e i (dval e i) j x /\ m' = map_set k x m.
Lemma mchain i m its m' : ochain (melem i) m its m' ->
  exists kjs kxs, its = map (fun kv => (fst kv, toks (snd kv))) kjs /\ reads_pairs e i kjs kxs /\ m' = put_all m kxs.
Proof.
  induction 1 as [k m it m1 (j & x & -> & Nr & Rx & ->)|k m it m1 its m2 (j & x & -> & Nr & Rx & ->) _ _ (js & xs & -> & Ri & ->)].
  - exists [(k, j)], [(k, x)]. split; [reflexivity|]. split; [apply rp_cons; auto; constructor|reflexivity].
  - exists ((k, j) :: js), ((k, x) :: xs). split; [reflexivity|]. split; [now apply rp_cons|reflexivity].
Qed.
Definition oelem (fs : list field) (a : str) (ob : list (str * val)) (it : list atok) (ob' : list (str * val)) : Prop :=
  exists j, it = toks j /\
  ((ob' = ob /\ forall f, In f fs -> f_skip f = false -> json_name f <> a) \/
   exists f x cur, In f fs /\ f_skip f = false /\ json_name f = a /\
     (forall g, In g fs -> f_skip g = false -> json_name g = json_name f -> g = f) /\
     afind (f_key f) ob = Some cur /\ reads e (f_type f) cur j x /\ ob' = aset (f_key f) x ob).
Lemma oelem_members fs a ob it ob' : oelem fs a ob it ob' -> exists j, it = toks j /\
  forall kjs ob2, reads_members e fs ob' kjs ob2 -> reads_members e fs ob ((a, j) :: kjs) ob2.
Proof.
  intros (j & -> & [(-> & N)|(f & x & cur & Hf & Hs & <- & U & Hc & Rx & ->)]); exists j; split; auto; intros kjs ob2 R.
  - now apply rm_unknown.
  - eapply rm_known; eauto.
Qed.
Lemma obchain fs ob its ob' : ochain (oelem fs) ob its ob' ->
  exists kjs, its = map (fun kv => (fst kv, toks (snd kv))) kjs /\ reads_members e fs ob kjs ob'.
Proof.
  induction 1 as [k ob it ob1 He|k ob it ob1 its ob2 He _ _ (kjs & -> & R)].
  - destruct (oelem_members _ _ _ _ _ He) as (j & -> & K). exists [(k, j)]. split; [reflexivity|]. apply K. constructor.
  - destruct (oelem_members _ _ _ _ _ He) as (j & -> & K). exists ((k, j) :: kjs). split; [reflexivity|]. now apply K.
Qed.
Lemma key_inj (l : list field) f g : NoDup (map f_key l) -> In f l -> In g l -> f_key f = f_key g -> f = g.
Proof.
  induction l as [|h l IH]; [intros _ []|]. cbn [map]. intros N Hf Hg E. inversion N as [|? ? N1 N2]; subst.
  destruct Hf as [<-|Hf], Hg as [<-|Hg]; auto.
  - exfalso. apply N1. rewrite E. now apply in_map.
  - exfalso. apply N1. rewrite <- E. now apply in_map.
Qed.
Lemma flds_set fs ob f x : NoDup (map f_key fs) -> In f fs -> shaped e (f_type f) x -> flds fs ob -> flds fs (aset (f_key f) x ob).
Proof.
  intros N Hf Hx H g Hg Hs. destruct (str_eqb (f_key g) (f_key f)) eqn:E.
  - apply str_eqb_eq in E. assert (g = f) as -> by (eapply key_inj; eauto). exists x. split; [apply afind_aset_same|exact Hx].
  - destruct (H g Hg Hs) as (y & Hy & Sy). exists y. split; [|exact Sy]. rewrite afind_aset_other; [exact Hy|].
    intro X. rewrite X, str_eqb_refl in E. discriminate.
Qed.

Lemma arr_look r its : rtok r = TNone \/ rtok r = TArrS -> look r (toks (JArr its)).
Proof. intros [H|H]; [now left|right]. exists AArrS. eexists. split; [reflexivity|]. now left. Qed.
Lemma obj_look r its : rtok r = TNone \/ rtok r = TObjS -> look r (toks (JObj its)).
Proof. intros [H|H]; [now left|right]. exists AObjS. eexists. split; [reflexivity|]. now left. Qed.
Lemma null_look r : rtok r = TNone \/ rtok r = TNull -> look r (toks JNull).
Proof. intros [H|H]; [now left|right]. exists ANull. eexists. split; [reflexivity|]. now left. Qed.

Definition good t v v' (mv : bool) r r' s : Prop :=
  (rok r' = true -> exists j s' b', accepts (dia o) s (toks j) s' /\ reads e t v j v' /\ shaped e t v' /\
     Q o s' b' TNone r' /\ look r (toks j) /\ (mv = false -> ~ raw_null e t j)) /\
  (ended r' -> stuck r' /\ short (dia o) (fun j => reads e t v j v') s).

Lemma good_err t v v' mv r r' s : errd r' -> good t v v' mv r r' s.
Proof. intro Y. split; intro Z; exfalso; [now apply ok_not_errd in Z|now apply ended_not_errd in Z]. Qed.

Lemma t_sound : forall fuel t v r v' mv r', parse_t fuel e t v r = Ok (v', mv, r') -> shaped e t v ->
  forall s b, G o s b r -> byte_string s -> good t v v' mv r r' s.
Proof.
  induction fuel as [|f IH]; intros t v r v' mv r' X Sh s b H Hb; [discriminate|]. pose proof X as X0. cbn [parse_t] in X.
  destruct (nth_error e t) as [d|] eqn:Hd; [|discriminate].
  destruct d as [|i64|dbl| |sm i|i|i| |fs ini].
  - apply bind_Ok in X as ([x r1] & X1 & X). injection X as <- <- <-. destruct (bool_inv _ _ _ _ _ _ H Hb X1) as (NE & A).
    split; [|intro En; contradiction]. intro Z. destruct (A Z) as (s' & b' & Ac & Hq & L). exists (JBool x), s', b'.
    split; [exact Ac|]. split; [now apply rd_bool|]. split; [eapply sd_any; [exact Hd|exact I]|]. split; [exact Hq|]. split; [exact L|].
    intros _. now apply nn_raw.
  - apply bind_Ok in X as ([x r1] & X1 & X). destruct i64; [|discriminate]. injection X as <- <- <-. destruct (int_inv _ _ _ _ _ _ H Hb X1) as (B & A). split.
    + intro Z. destruct (A Z) as (s' & b' & Ac & Iz & Hq & L). exists (JInt x), s', b'.
      split; [exact Ac|]. split; [now apply rd_int|]. split; [eapply sd_any; [exact Hd|exact I]|]. split; [exact Hq|]. split; [exact L|].
      intros _. now apply nn_raw.
    + intro En. destruct (B En) as (w & y & -> & Bw & Ta & Iz & _ & T). split; [now left|]. eapply (so_number _ _ w y (JInt x)); auto; [exact I|now apply rd_int].
  - apply bind_Ok in X as ([x r1] & X1 & X). destruct dbl; [|discriminate]. injection X as <- <- <-. destruct (float_inv _ _ _ _ _ _ H Hb X1) as (B & A). split.
    + intro Z. destruct (A Z) as (s' & b' & Ac & Iz & Hq & L). exists (JFloat x), s', b'.
      split; [exact Ac|]. split; [now apply rd_float|]. split; [eapply sd_any; [exact Hd|exact I]|]. split; [exact Hq|]. split; [exact L|].
      intros _. now apply nn_raw.
    + intro En. destruct (B En) as (w & y & -> & Bw & Ta & Iz & _ & T). split; [now left|]. eapply (so_number _ _ w y (JFloat x)); auto; [exact I|now apply rd_float].
  - apply bind_Ok in X as ([x r1] & X1 & X). injection X as <- <- <-. destruct (str_inv _ _ _ _ _ _ H Hb X1) as (NE & A).
    split; [|intro En; contradiction]. intro Z. destruct (A Z) as (s' & b' & Ac & Hq & L). exists (JStr x), s', b'.
    split; [exact Ac|]. split; [now apply rd_str|]. split; [eapply sd_any; [exact Hd|exact I]|]. split; [exact Hq|]. split; [exact L|].
    intros _. now apply nn_raw.
  - (* pointer *)
    apply bind_Ok in X as ([tk r1] & X1 & X).
    assert (Hi : shaped e i (dval e i)) by (eapply ref_shaped; [exact Hd|now left]).
    assert (S1 : errd r1 -> errd r').
    { intro Y. destruct (same_type tk TNull).
      - apply bind_Ok in X as ([t2 r2] & X2 & X). injection X as <- <- <-. eapply errd_steps; [eapply rs_next; eauto|exact Y].
      - cbv zeta in X. apply bind_Ok in X as ([[p' mv'] r2] & X2 & X). injection X as <- <- <-. eapply errd_steps; [eapply rs_typed; exact X2|exact Y]. }
    destruct (tri r1) as [O1|[O1|O1]]; [| |now apply good_err, S1].
    2:{ destruct (peek_end _ _ _ _ _ _ H Hb X1 O1) as [(-> & Te & _)|(w & a & x & -> & Bw & Ta & Ns)].
        - cbn [same_type] in X. cbv zeta in X. apply bind_Ok in X as ([[p' mv'] r2] & X2 & X). injection X as <- <- <-.
          apply good_err. eapply t_eos; [exact O1|left; exact Te|exact X2].
        - assert (X2 : parse_t (S f) e t v r1 = Ok (v', mv, r')).
          { cbn [parse_t]. rewrite Hd. assert (P : peek_tok r1 = Ok (tk, r1)).
            { pose proof Ns as (_ & N & K & _). unfold peek_tok. apply look_peek in X1 as (_ & Y1). rewrite Y1 in K |- *.
              destruct (same_type tk TNone) eqn:Ex; [apply same_none in Ex; rewrite Ex in K; now apply kind_none in K|]. reflexivity. }
            rewrite P. exact X. }
          destruct (t_num _ _ _ _ _ _ _ _ Ns Sh X2) as [Y|(En & Tn & j & Nj & Ej & Rj)]; [now apply good_err|].
          split; [intro Z; rewrite (ended_not_ok _ En) in Z; discriminate|]. intros _. split; [now left|].
          eapply so_number; eauto. now rewrite Ej. }
    destruct (peek_g _ _ _ _ _ _ H Hb X1 O1) as (Rt & Nt & b1 & H1).
    assert (Lb : forall ts, look r1 ts -> look r ts) by (intros ts L; eapply look_back; eauto).
    destruct (same_type tk TNull) eqn:Tk.
    + assert (tk = TNull) as -> by (destruct tk; try discriminate Tk; reflexivity).
      apply bind_Ok in X as ([t2 r2] & X2 & X). injection X as <- <- <-.
      destruct (next_inv _ _ _ _ _ _ H1 Hb X2) as (A & _).
      assert (Y : t2 = TNull /\ r2 = set_tok TNone r1). { unfold next_tok in X2. rewrite Rt in X2. cbn in X2. injection X2 as <- <-. auto. }
      destruct Y as (-> & ->).
      destruct (A O1) as (a & s' & b' & Ac & K & Hq & _). pose proof (kind_same a TNull ANull K eq_refl I) as ->.
      split; [|intro En; apply Q_ok in Hq; rewrite (ended_not_ok _ En) in Hq; discriminate].
      intros _. exists JNull, s', b'. split; [exact Ac|].
      destruct sm; (split; [|split; [|split; [exact Hq|split; [apply Lb, null_look; auto|]]]]).
      * eapply rd_null; eauto.
      * eapply sd_null; eauto.
      * intros _ (_ & i' & Hd'). rewrite Hd in Hd'. discriminate.
      * eapply rd_raw_null; eauto.
      * exact Sh.
      * discriminate.
    + cbv zeta in X. apply bind_Ok in X as ([[p' mv'] r2] & X2 & X). injection X as <- <- <-.
      assert (P : exists op, v = VPtr op /\ match v with VPtr (Some p) => p | _ => dval e i end = match op with Some x => x | None => dval e i end /\
                  shaped e i match op with Some x => x | None => dval e i end).
      { destruct (shaped_ptr _ _ _ _ Hd Sh) as [->|(p & -> & Hp)]; [exists None|exists (Some p)]; auto. }
      destruct P as (op & Ev & Ep & Sp). rewrite Ep in X2. subst v.
      destruct (IH _ _ _ _ _ _ X2 Sp _ _ H1 Hb) as (A & B). split.
      * intro Z. destruct (A Z) as (j & s' & b' & Ac & Rj & Sj & Hq & L & _).
        assert (Nj : j <> JNull).
        { intros ->. destruct L as [L|(a & ts & E1 & K)]; [congruence|]. injection E1 as <- <-. rewrite Rt in K.
          destruct K as [K|(K & _)]; [rewrite K in Tk|]; discriminate. }
        exists j, s', b'. split; [exact Ac|]. split; [eapply rd_ptr; eauto|]. split; [eapply sd_ptr; eauto|]. split; [exact Hq|].
        split; [now apply Lb|]. intros _. now apply nn_raw.
      * intro En. destruct (B En) as (Sk & Hs). split; [exact Sk|]. eapply short_imp; [|exact Hs].
        cbv beta. intros j Nj Rj. eapply rd_ptr; eauto.
  - (* map *)
    apply bind_Ok in X as ([m' r1] & X1 & X). injection X as <- <- <-.
    assert (Hi : shaped e i (dval e i)) by (eapply ref_shaped; [exact Hd|now left]).
    destruct (shaped_map _ _ _ Hd Sh) as (m & -> & Sm). cbn [map_of] in X1.
    assert (El : forall k, elem_ok o (fun m => sorted (akeys m)) (melem i k) (fun m r =>
        do (x, moved, r') <- parse_t f e i (dval e i) r;
        if rok r' then (if moved then Abort else Ok (map_set k x m, r')) else Ok (m, r'))).
    { intros k st q st' q' Y. apply bind_Ok in Y as ([[x mvx] q1] & Y1 & Y).
      assert (q1 = q') as <- by (destruct (rok q1); [destruct mvx; [discriminate|]|]; congruence).
      split; [eapply rs_typed; eauto|]. intros s0 b0 Is H0 Hb0. destruct (IH _ _ _ _ _ _ Y1 Hi _ _ H0 Hb0) as (F1 & F2).
      split; [|intro En; now apply F2]. intro Hok. rewrite Hok in Y. destruct mvx; [discriminate|]. injection Y as <-.
      destruct (F1 Hok) as (j & s' & b' & Acj & Rj & _ & Hq & _ & Nr). exists (toks j), s', b'. split; [exact Acj|].
      split; [exists j, x; auto|]. split; [now apply map_set_sorted|exact Hq]. }
    destruct (parse_object_inv o _ (melem i) _ El _ _ _ _ _ _ _ X1 Sm H Hb) as (P1 & P2). split.
    + intro Z. destruct (P2 Z) as (s' & b' & Hq & Sm' & [(Ac2 & -> & L)|[(Ac2 & -> & L)|(its & Ac2 & _ & Ch & L)]]).
      * exists JNull, s', b'. split; [exact Ac2|]. split; [eapply rd_map_null; eauto|]. split; [exact Sh|]. split; [exact Hq|].
        split; [now apply null_look|]. intros _. eapply not_raw; [exact Hd|discriminate].
      * exists (JObj []), s', b'. split; [exact Ac2|]. split; [eapply rd_map; eauto; [constructor|apply (put_all_updated [] m Sm)]|].
        split; [exact Sh|]. split; [exact Hq|]. split; [now apply obj_look|]. intros _. now apply nn_raw.
      * destruct (mchain _ _ _ _ Ch) as (kjs & kxs & -> & Rp & ->). exists (JObj kjs), s', b'. split; [rewrite toks_obj; exact Ac2|].
        split; [eapply rd_map; eauto; now apply put_all_updated|]. split; [eapply sd_map; eauto|].
        split; [exact Hq|]. split; [now apply obj_look|]. intros _. now apply nn_raw.
    + intro En. destruct (P1 En) as (Sk & s2 & Ac2 & Nm & ->). split; [exact Sk|]. eapply short_obj; eauto.
      eapply rd_map; eauto; [constructor|apply (put_all_updated [] m Sm)].
  - (* list *)
    apply bind_Ok in X as ([l' r1] & X1 & X). injection X as <- <- <-.
    assert (Hi : shaped e i (dval e i)) by (eapply ref_shaped; [exact Hd|now left]).
    destruct (shaped_list _ _ _ Hd Sh) as (l & ->). cbn [list_of] in X1.
    assert (El : forall k, elem_ok o (fun _ => True) (lelem i k) (fun l r =>
        do (x, moved, r') <- parse_t f e i (dval e i) r;
        if rok r' then (if moved then Abort else Ok (l ++ [x], r')) else Ok (l, r'))).
    { intros k st q st' q' Y. apply bind_Ok in Y as ([[x mvx] q1] & Y1 & Y).
      assert (q1 = q') as <- by (destruct (rok q1); [destruct mvx; [discriminate|]|]; congruence).
      split; [eapply rs_typed; eauto|]. intros s0 b0 Is H0 Hb0. destruct (IH _ _ _ _ _ _ Y1 Hi _ _ H0 Hb0) as (F1 & F2).
      split; [|intro En; now apply F2]. intro Hok. rewrite Hok in Y. destruct mvx; [discriminate|]. injection Y as <-.
      destruct (F1 Hok) as (j & s' & b' & Acj & Rj & _ & Hq & _ & Nr). exists (toks j), s', b'. split; [exact Acj|].
      split; [exists j, x; auto|]. split; [exact I|exact Hq]. }
    destruct (parse_array_inv o _ (lelem i) _ El _ _ _ _ _ _ _ X1 I H Hb) as (P1 & P2). split.
    + intro Z. destruct (P2 Z) as (s' & b' & Hq & _ & [(Ac2 & -> & L)|[(Ac2 & -> & L)|(its & Ac2 & _ & Ch & L)]]).
      * exists JNull, s', b'. split; [exact Ac2|]. split; [eapply rd_list_null; eauto|]. split; [exact Sh|]. split; [exact Hq|].
        split; [now apply null_look|]. intros _. eapply not_raw; [exact Hd|discriminate].
      * exists (JArr []), s', b'. split; [exact Ac2|]. split; [rewrite <- (app_nil_r l) at 2; eapply rd_list; eauto; constructor|].
        split; [exact Sh|]. split; [exact Hq|]. split; [now apply arr_look|]. intros _. now apply nn_raw.
      * destruct (lchain _ _ _ _ _ Ch) as (js & xs & -> & Rp & ->). exists (JArr js), s', b'. split; [rewrite toks_arr; exact Ac2|].
        split; [eapply rd_list; eauto|]. split; [eapply sd_list; eauto|].
        split; [exact Hq|]. split; [now apply arr_look|]. intros _. now apply nn_raw.
    + intro En. destruct (P1 En) as (Sk & s2 & Ac2 & Nm & ->). split; [exact Sk|]. eapply short_arr; eauto.
      rewrite <- (app_nil_r l) at 2. eapply rd_list; eauto; constructor.
  - (* void *)
    apply bind_Ok in X as ([x r1] & X1 & X). injection X as <- <- <-.
    destruct (dyn_sound _ _ _ _ _ _ X1 _ _ H Hb) as (A & B). split.
    + intro Z. destruct (A Z) as (j & s' & b' & Ac & Jo & -> & Hq & L). exists j, s', b'. split; [exact Ac|].
      split.
      { destruct j; try (apply rd_dyn; auto; discriminate). now apply rd_dyn_null. }
      split; [eapply sd_any; [exact Hd|exact I]|]. split; [exact Hq|]. split; [exact L|]. intros _. eapply not_raw; [exact Hd|discriminate].
    + intro En. destruct (B En) as (Sk & Hs). split; [exact Sk|]. eapply short_imp; [|exact Hs].
      cbv beta. intros j Nj (Jo & ->). now apply rd_dyn.
  - (* class *)
    apply bind_Ok in X as ([ob' r1] & X1 & X). injection X as <- <- <-.
    destruct (shaped_obj _ _ _ _ Hd Sh) as (ob & -> & Fo). cbn [obj_of] in X1.
    destruct (Ee _ _ Hd) as (Nd & _). destruct (Es _ _ Hd) as (_ & Nk). cbn [names_distinct] in Nd.
    assert (El : forall a, elem_ok o (flds fs) (oelem fs a) (fun o r =>
        match find_alias fs a with
        | None => do r' <- skip f r; Ok (o, r')
        | Some fd =>
          do (x, _, r') <- parse_t f e (f_type fd) (field_of (f_key fd) o) r;
          Ok (aset (f_key fd) x o, r')
        end)).
    { intros a st q st' q' Y. destruct (find_alias fs a) as [fd|] eqn:Fa.
      - apply bind_Ok in Y as ([[x mvx] q1] & Y1 & Y). injection Y as <- <-. split; [eapply rs_typed; eauto|].
        intros s0 b0 Is H0 Hb0. unfold find_alias in Fa. apply find_some in Fa as (Fi & Fn). apply str_eqb_eq in Fn.
        unfold obj_fields in Fi. pose proof Fi as Fi0. apply filter_In in Fi as (Fi & Fs). apply negb_true_iff in Fs.
        destruct (Is fd Fi Fs) as (cur & Hc & Sc). unfold field_of in Y1. rewrite Hc in Y1.
        destruct (IH _ _ _ _ _ _ Y1 Sc _ _ H0 Hb0) as (F1 & F2). split; [|intro En; now apply F2].
        intro Hok. destruct (F1 Hok) as (j & s' & b' & Acj & Rj & Sj & Hq & _ & _). exists (toks j), s', b'. split; [exact Acj|].
        split; [|split; [now apply flds_set|exact Hq]]. exists j. split; [reflexivity|]. right. exists fd, x, cur.
        split; [exact Fi|]. split; [exact Fs|]. split; [symmetry; exact Fn|]. split; [|auto].
        intros g Hg Hgs E. eapply name_inj; [exact Nd| | |exact E]; auto. apply filter_In. split; [exact Hg|]. now rewrite Hgs.
      - apply bind_Ok in Y as (q1 & Y1 & Y). injection Y as <- <-. destruct (skip_sound o _ _ _ Y1) as (St & F). split; [exact St|].
        intros s0 b0 Is H0 Hb0. destruct (F _ _ H0 Hb0) as (F1 & F2). split; [|intro En; now apply F2].
        intro Hok. destruct (F1 Hok) as (j & s' & b' & Acj & Hq). exists (toks j), s', b'. split; [exact Acj|].
        split; [|split; [exact Is|exact Hq]]. exists j. split; [reflexivity|]. left. split; [reflexivity|].
        intros g Hg Hgs E. unfold find_alias in Fa.
        assert (Z : str_eqb a (f_name g) = false).
        { eapply find_none in Fa; [exact Fa|]. unfold obj_fields. apply filter_In. split; [exact Hg|]. now rewrite Hgs. }
        subst a. change (f_name g) with (json_name g) in Z. rewrite str_eqb_refl in Z. discriminate. }
    destruct (parse_object_inv o _ (oelem fs) _ El _ _ _ _ _ _ _ X1 Fo H Hb) as (P1 & P2). split.
    + intro Z. destruct (P2 Z) as (s' & b' & Hq & Fo' & [(Ac2 & -> & L)|[(Ac2 & -> & L)|(its & Ac2 & _ & Ch & L)]]).
      * exists JNull, s', b'. split; [exact Ac2|]. split; [eapply rd_obj_null; eauto|]. split; [exact Sh|]. split; [exact Hq|].
        split; [now apply null_look|]. intros _. eapply not_raw; [exact Hd|discriminate].
      * exists (JObj []), s', b'. split; [exact Ac2|]. split; [eapply rd_obj; eauto; constructor|].
        split; [exact Sh|]. split; [exact Hq|]. split; [now apply obj_look|]. intros _. now apply nn_raw.
      * destruct (obchain _ _ _ _ Ch) as (kjs & -> & Rp). exists (JObj kjs), s', b'. split; [rewrite toks_obj; exact Ac2|].
        split; [eapply rd_obj; eauto|]. split; [eapply sd_obj; eauto|].
        split; [exact Hq|]. split; [now apply obj_look|]. intros _. now apply nn_raw.
    + intro En. destruct (P1 En) as (Sk & s2 & Ac2 & Nm & ->). split; [exact Sk|]. eapply short_obj; eauto.
      eapply rd_obj; eauto; constructor.
Qed.
End T.
